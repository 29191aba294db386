(** Proofs about the parallelization of the schedule blocks. *)
From Coq Require Import ZArith List Bool Arith Lia Permutation.
From Verif Require Import ListTac RangeModel MDRangeModel Result BoxSetModel BoxSetProofs BoxListProofs Spec WritesMapModel WritesMapProofs ParModel ParSpec.
Import ListNotations.
Local Open Scope nat_scope.

(** ** Lists *)
Lemma fold_left_flat_map : forall A B C (f : A -> C -> A) (g : B -> list C) l a,
  fold_left f (flat_map g l) a = fold_left (fun a x => fold_left f (g x) a) l a.
Proof. intros A B C f g l. induction l as [|x l IH]; intros a; cbn [flat_map fold_left]; auto. now rewrite fold_left_app, IH. Qed.
Lemma fold_left_map : forall A B C (f : A -> C -> A) (g : B -> C) l a,
  fold_left f (map g l) a = fold_left (fun a x => f a (g x)) l a.
Proof. intros A B C f g l. induction l as [|x l IH]; intros a; cbn; auto. Qed.
Lemma fold_left_fext : forall A B (f g : A -> B -> A) l a, (forall a x, f a x = g a x) -> fold_left f l a = fold_left g l a.
Proof. intros A B f g l. induction l as [|x l IH]; intros a H; cbn; auto. rewrite H. now apply IH. Qed.
Definition memb (x : nat) (l : list nat) : bool := existsb (Nat.eqb x) l.
Lemma memb_spec : forall x l, memb x l = true <-> In x l.
Proof.
  intros x l. unfold memb. rewrite existsb_exists. split.
  - intros (y & Y & E). apply Nat.eqb_eq in E. now subst.
  - intros H. exists x. split; auto. apply Nat.eqb_refl.
Qed.
Lemma memb_false : forall x l, memb x l = false <-> ~ In x l.
Proof. intros x l. rewrite <- memb_spec. destruct (memb x l); split; intros H; try congruence; exfalso; auto. Qed.

(** ** The graph as a list of edges *)
Definition add_edge (g : pgraph) (e : nat * nat) : pgraph := add_dependency (snd e) g (fst e).
Definition graph_of (es : list (nat * nat)) : pgraph := fold_left add_edge es {| dependantBlocks := fun _ => []; inDegrees := fun _ => 0 |}.
Definition real_edges (es : list (nat * nat)) : list (nat * nat) := filter (fun e => negb (Nat.eqb (fst e) (snd e))) es.
Definition writers (es : list (nat * nat)) (r : nat) : list nat := map fst (filter (fun e => Nat.eqb (snd e) r) (real_edges es)).

Lemma writers_snoc : forall es e r, writers (es ++ [e]) r =
  writers es r ++ (if negb (Nat.eqb (fst e) (snd e)) && Nat.eqb (snd e) r then [fst e] else []).
Proof.
  intros es e r. unfold writers, real_edges. rewrite filter_app, filter_app, map_app. f_equal. cbn.
  destruct (Nat.eqb (fst e) (snd e)); cbn; auto. destruct (Nat.eqb (snd e) r); auto.
Qed.
Lemma in_writers : forall es r w, In w (writers es r) <-> In (w, r) es /\ w <> r.
Proof.
  intros es r w. unfold writers, real_edges. rewrite in_map_iff. split.
  - intros ((w' & r') & <- & H). apply filter_In in H as (H & E). apply filter_In in H as (H & N). cbn in *.
    apply Nat.eqb_eq in E. subst. split; auto. intros ->. now rewrite Nat.eqb_refl in N.
  - intros (H & N). exists (w, r). split; auto. apply filter_In. split; [|apply Nat.eqb_refl]. apply filter_In. split; auto.
    cbn. apply Nat.eqb_neq in N. now rewrite N.
Qed.
Lemma set_insert_in : forall l x y, In y (set_insert l x) <-> In y l \/ y = x.
Proof.
  intros l x y. unfold set_insert. destruct (existsb (Nat.eqb x) l) eqn:E.
  - apply (memb_spec x l) in E. intuition. now subst.
  - rewrite in_app_iff. cbn. intuition.
Qed.
Lemma set_insert_nodup : forall l x, NoDup l -> NoDup (set_insert l x).
Proof.
  intros l x H. unfold set_insert. destruct (existsb (Nat.eqb x) l) eqn:E; auto. apply (memb_false x l) in E.
  apply NoDup_app_intro; auto; [constructor; [intros []|constructor]|]. intros y Y [<-|[]]. contradiction.
Qed.
Lemma graph_of_spec : forall es,
  (forall r, inDegrees (graph_of es) r = length (writers es r))
  /\ (forall w, NoDup (dependantBlocks (graph_of es) w))
  /\ (forall w r, In r (dependantBlocks (graph_of es) w) <-> In w (writers es r)).
Proof.
  intros es. induction es as [|e es IH] using rev_ind.
  - cbn. split; [reflexivity|]. split; [constructor|]. intros w r. split; intros [].
  - destruct IH as (D & N & I). unfold graph_of in *. rewrite fold_left_app. cbn [fold_left].
    set (g := fold_left add_edge es _) in *. unfold add_edge, add_dependency. destruct (Nat.eqb (fst e) (snd e)) eqn:S.
    + split; [|split]; auto; intros; rewrite writers_snoc, S; cbn; rewrite app_nil_r; auto.
    + cbn [inDegrees dependantBlocks]. unfold upd. split; [|split].
      * intros r. rewrite writers_snoc, S, app_length. cbn. rewrite Nat.eqb_sym.
        destruct (Nat.eqb (snd e) r) eqn:E; cbn; [apply Nat.eqb_eq in E; subst|]; rewrite D; lia.
      * intros w. destruct (Nat.eqb w (fst e)); auto. apply set_insert_nodup. auto.
      * intros w r. rewrite writers_snoc, S, in_app_iff. cbn.
        destruct (Nat.eqb w (fst e)) eqn:E; [apply Nat.eqb_eq in E|apply Nat.eqb_neq in E].
        -- subst. rewrite set_insert_in, I. destruct (Nat.eqb (snd e) r) eqn:F; [apply Nat.eqb_eq in F|apply Nat.eqb_neq in F]; cbn; intuition; subst; intuition.
        -- rewrite I. destruct (Nat.eqb (snd e) r); cbn; intuition. now subst.
Qed.

(** ** The loops *)
Section Groups.
Variable (dep : nat -> list nat) (ws : nat -> list nat) (ids : list nat).
Hypothesis dep_nodup : forall w, NoDup (dep w).
Hypothesis dep_in : forall w r, In r (dep w) <-> In w (ws r).
Hypothesis dep_ids : forall w r, In r (dep w) -> In r ids.

(** The distinct writers of a block that have been taken. *)
Definition taken (P : list nat) (r : nat) : nat := length (filter (fun w => memb w P) (nodup Nat.eq_dec (ws r))).
Definition counted (P : list nat) (deg : nat -> nat) : Prop := forall r, deg r + taken P r = length (ws r).

Lemma filter_le : forall A (f : A -> bool) l, length (filter f l) <= length l.
Proof. intros A f l. induction l as [|x l IH]; cbn; auto. destruct (f x); cbn; lia. Qed.
Lemma filter_all : forall A (f : A -> bool) l, length (filter f l) = length l -> forall x, In x l -> f x = true.
Proof.
  intros A f l. induction l as [|y l IH]; cbn; intros H x []; subst.
  - destruct (f x) eqn:E; auto. cbn in H. pose proof (filter_le _ f l). lia.
  - apply IH; auto. destruct (f y) eqn:E; cbn in H; [lia|]. pose proof (filter_le _ f l). lia.
Qed.
Lemma nodup_le : forall l, length (nodup Nat.eq_dec l) <= length l.
Proof. intros l. apply NoDup_incl_length; [apply NoDup_nodup|]. intros x X. now apply nodup_In in X. Qed.

Lemma zero_all : forall P deg r, counted P deg -> deg r = 0 -> forall w, In w (ws r) -> In w P.
Proof.
  intros P deg r C Z w W. specialize (C r). rewrite Z in C. cbn in C. unfold taken in C. apply memb_spec.
  apply (filter_all _ (fun w => memb w P) (nodup Nat.eq_dec (ws r))); [|now apply nodup_In].
  pose proof (filter_le _ (fun w => memb w P) (nodup Nat.eq_dec (ws r))). pose proof (nodup_le (ws r)). lia.
Qed.
Lemma filter_grow : forall P b l, NoDup l -> ~ In b P ->
  length (filter (fun w => memb w (P ++ [b])) l) = length (filter (fun w => memb w P) l) + (if memb b l then 1 else 0).
Proof.
  intros P b l. induction l as [|x l IH]; intros N B; auto. inversion N as [|? ? X N']; subst. cbn [filter].
  specialize (IH N' B). change (memb b (x :: l)) with (Nat.eqb b x || memb b l).
  assert (S : memb x (P ++ [b]) = memb x P || Nat.eqb x b).
  { unfold memb. rewrite existsb_app. cbn. now rewrite orb_false_r. }
  rewrite S, (Nat.eqb_sym b x). destruct (Nat.eqb x b) eqn:E.
  - apply Nat.eqb_eq in E. subst. apply memb_false in B, X. rewrite B. cbn [orb length]. rewrite IH, X. lia.
  - rewrite orb_false_r. destruct (memb x P); cbn [orb length]; rewrite IH; lia.
Qed.
Lemma taken_grow : forall P b r, ~ In b P -> taken (P ++ [b]) r = taken P r + (if memb r (dep b) then 1 else 0).
Proof.
  intros P b r B. unfold taken. rewrite filter_grow; auto using NoDup_nodup. f_equal.
  destruct (memb r (dep b)) eqn:E.
  - apply memb_spec, dep_in in E. apply (nodup_In Nat.eq_dec), memb_spec in E. now rewrite E.
  - apply memb_false in E. rewrite dep_in in E. rewrite <- (nodup_In Nat.eq_dec) in E. apply memb_false in E. now rewrite E.
Qed.

Definition release_step (st : pgraph * list nat) (d : nat) : res (pgraph * list nat) :=
  let '(g, newBlocks) := st in
  _ <- assert_ok (Nat.ltb 0 (inDegrees g d)) ;;
  let n := inDegrees g d - 1 in
  Ok (mkGraph (dependantBlocks g) (upd (inDegrees g) d n), if Nat.eqb n 0 then newBlocks ++ [d] else newBlocks).
Lemma release_step_ok : forall deg nb d, 0 < deg d ->
  release_step (mkGraph dep deg, nb) d = Ok (mkGraph dep (upd deg d (deg d - 1)), if Nat.eqb (deg d - 1) 0 then nb ++ [d] else nb).
Proof. intros deg nb d H. unfold release_step. cbn [inDegrees]. destruct (Nat.ltb_spec 0 (deg d)); [reflexivity|lia]. Qed.
Lemma release_ok : forall l deg nb, NoDup l -> (forall d, In d l -> 0 < deg d) ->
  exists deg', fold_res release_step l (mkGraph dep deg, nb) = Ok (mkGraph dep deg', nb ++ filter (fun d => Nat.eqb (deg d) 1) l)
  /\ forall r, deg' r = if memb r l then deg r - 1 else deg r.
Proof.
  induction l as [|d l IH]; intros deg nb N P; cbn [fold_res filter].
  - exists deg. rewrite app_nil_r. split; auto.
  - inversion N as [|? ? D N']; subst. assert (Pd : 0 < deg d) by (apply P; now left). rewrite release_step_ok by auto. cbn [bind].
    destruct (IH (upd deg d (deg d - 1)) (if Nat.eqb (deg d - 1) 0 then nb ++ [d] else nb) N') as (deg' & F & S).
    { intros x X. unfold upd. destruct (Nat.eqb x d) eqn:E; [apply Nat.eqb_eq in E; now subst|]. apply P. now right. }
    exists deg'. rewrite F. split.
    + f_equal. f_equal.
      assert (FE : filter (fun x => Nat.eqb (upd deg d (deg d - 1) x) 1) l = filter (fun x => Nat.eqb (deg x) 1) l).
      { apply filter_ext_in. intros x X. unfold upd. destruct (Nat.eqb x d) eqn:E; auto. apply Nat.eqb_eq in E. now subst. }
      rewrite FE. destruct (Nat.eqb_spec (deg d - 1) 0); destruct (Nat.eqb_spec (deg d) 1); try lia; auto. now rewrite <- app_assoc.
    + intros r. rewrite S. change (memb r (d :: l)) with (Nat.eqb r d || memb r l). unfold upd.
      destruct (Nat.eqb r d) eqn:E; cbn [orb]; auto. apply Nat.eqb_eq in E. subst. apply memb_false in D. now rewrite D.
Qed.

Record inv (P todo nb : list nat) (deg : nat -> nat) : Prop := {
  inv_nodup : NoDup (P ++ todo ++ nb);
  inv_ids : incl (P ++ todo ++ nb) ids;
  inv_count : counted P deg;
  inv_zero : forall r, In r ids -> (deg r = 0 <-> In r (P ++ todo ++ nb)) }.

Definition limit_ok (max : Z) : Prop := max = (-1)%Z \/ (1 <= max)%Z.
Definition within (max : Z) (l : list nat) : Prop := max = (-1)%Z \/ (Z.of_nat (length l) <= max)%Z.

Lemma inv_take : forall P b todo nb deg deg', inv P (b :: todo) nb deg ->
  (forall r, deg' r = if memb r (dep b) then deg r - 1 else deg r) ->
  (forall d, In d (dep b) -> 0 < deg d) ->
  inv (P ++ [b]) todo (nb ++ filter (fun d => Nat.eqb (deg d) 1) (dep b)) deg'.
Proof.
  intros P b todo nb deg deg' [N I C Z] S Pos.
  assert (E : forall x, In x ((P ++ [b]) ++ todo ++ nb ++ filter (fun d => Nat.eqb (deg d) 1) (dep b)) <->
     In x (P ++ (b :: todo) ++ nb) \/ (In x (dep b) /\ deg x = 1)).
  { intros x. repeat (rewrite in_app_iff || rewrite filter_In || rewrite Nat.eqb_eq). cbn. tauto. }
  constructor.
  - replace ((P ++ [b]) ++ todo ++ nb ++ filter (fun d => Nat.eqb (deg d) 1) (dep b))
      with ((P ++ (b :: todo) ++ nb) ++ filter (fun d => Nat.eqb (deg d) 1) (dep b)) by (repeat (rewrite <- app_assoc; cbn); reflexivity).
    apply NoDup_app_intro; auto; [now apply NoDup_filter|]. intros x X F. apply filter_In in F as (F & G). apply Nat.eqb_eq in G.
    apply Z in X; [lia|]. now apply I.
  - intros x X. apply E in X as [X|(X & _)]; [now apply I|now apply (dep_ids b)].
  - intros r. rewrite taken_grow, S.
    + specialize (C r). destruct (memb r (dep b)) eqn:M; [|lia]. apply memb_spec in M. specialize (Pos r M). lia.
    + apply NoDup_remove_2 in N. rewrite in_app_iff in N. tauto.
  - intros r R. rewrite E, S. destruct (memb r (dep b)) eqn:M.
    + apply memb_spec in M. pose proof (Pos r M). rewrite <- (Z r R). intuition lia.
    + apply memb_false in M. rewrite <- (Z r R). intuition.
Qed.

Lemma inv_skip : forall P b todo nb deg, inv P (b :: todo) nb deg -> inv P todo (nb ++ [b]) deg.
Proof.
  intros P b todo nb deg [N I C Z].
  assert (PE : Permutation (P ++ (b :: todo) ++ nb) (P ++ todo ++ nb ++ [b])).
  { apply Permutation_app_head. cbn. rewrite app_assoc. apply Permutation_cons_append. }
  constructor; auto.
  - eapply Permutation_NoDup; eauto.
  - intros x X. apply I. eapply Permutation_in; [apply Permutation_sym; eauto|auto].
  - intros r R. rewrite (Z r R). split; intros H; [now apply (Permutation_in _ PE)|now apply (Permutation_in _ (Permutation_sym PE))].
Qed.

Lemma take_blocks_ok : forall max P0 todo nb indep deg, limit_ok max ->
  inv (P0 ++ indep) todo nb deg -> within max indep ->
  exists deg' nb' more, take_blocks max todo (mkGraph dep deg) nb indep = Ok (mkGraph dep deg', nb', indep ++ more)
    /\ inv (P0 ++ indep ++ more) [] nb' deg' /\ within max (indep ++ more) /\ incl more todo
    /\ (todo <> [] -> indep ++ more <> []).
Proof.
  intros max P0 todo. induction todo as [|b todo IH]; intros nb indep deg L V W; cbn [take_blocks].
  - exists deg, nb, []. rewrite app_nil_r. split; auto. split; auto. split; auto. split; [intros x []|congruence].
  - assert (Z : deg b = 0).
    { apply (inv_zero _ _ _ _ V); [apply (inv_ids _ _ _ _ V)|]; rewrite in_app_iff; right; now left. }
    cbn [inDegrees]. rewrite Z. cbn [Nat.eqb assert_ok bind].
    destruct (Z.eqb max (-1) || Z.ltb (Z.of_nat (length indep)) max) eqn:T.
    + assert (Nb : ~ In b (P0 ++ indep)).
      { pose proof (inv_nodup _ _ _ _ V) as N. apply NoDup_remove_2 in N. rewrite in_app_iff in N. tauto. }
      assert (Pos : forall d, In d (dep b) -> 0 < deg d).
      { intros d D. pose proof (inv_count _ _ _ _ V d) as C. pose proof (taken_grow (P0 ++ indep) b d Nb) as G.
        assert (M : memb d (dep b) = true) by now apply memb_spec. rewrite M in G.
        assert (taken ((P0 ++ indep) ++ [b]) d <= length (ws d)); [|lia].
        unfold taken. etransitivity; [apply filter_le|apply nodup_le]. }
      unfold release. cbn [dependantBlocks].
      destruct (release_ok (dep b) deg nb (dep_nodup b) Pos) as (deg' & F & S). change (fold_res _ (dep b) (mkGraph dep deg, nb)) with (fold_res release_step (dep b) (mkGraph dep deg, nb)). rewrite F. cbn [bind fst snd].
      pose proof (inv_take _ _ _ _ _ deg' V S Pos) as V'.
      destruct (IH (nb ++ filter (fun d => Nat.eqb (deg d) 1) (dep b)) (indep ++ [b]) deg' L) as (deg2 & nb2 & more & F2 & V2 & W2 & I2 & _).
      * now rewrite <- app_assoc in V'.
      * unfold within. rewrite app_length. cbn. apply orb_true_iff in T as [T|T]; [left; now apply Z.eqb_eq|right].
        apply Z.ltb_lt in T. lia.
      * exists deg2, nb2, (b :: more). rewrite F2, <- app_assoc. cbn. rewrite <- !app_assoc in V2, W2. cbn in V2, W2.
        split; auto. split; auto. split; auto. split; [|intros _; destruct indep; discriminate].
        intros x [->|X]; [now left|right; auto].
    + apply inv_skip in V. destruct (IH (nb ++ [b]) indep deg L V W) as (deg2 & nb2 & more & F2 & V2 & W2 & I2 & _).
      exists deg2, nb2, more. split; auto. split; auto. split; auto. split; [intros x X; right; auto|].
      intros _. apply orb_false_iff in T as (T1 & T2). apply Z.eqb_neq in T1. apply Z.ltb_ge in T2.
      destruct L as [L|L]; [congruence|]. destruct indep; cbn in T2; [lia|discriminate].
Qed.

(** The writers of a block are in the previous groups. *)
Definition ordered (groups : list (list nat)) : Prop :=
  forall before g after, groups = before ++ g :: after -> forall b w, In b g -> In w (ws b) -> In w (concat before).

Lemma ordered_snoc : forall groups g, ordered groups ->
  (forall b w, In b g -> In w (ws b) -> In w (concat groups)) -> ordered (groups ++ [g]).
Proof.
  intros groups g O H before h after E b w B W. destruct after as [|x after] using rev_ind.
  - apply app_inj_tail in E as (-> & ->). eauto.
  - clear IHafter. rewrite app_comm_cons, app_assoc in E. apply app_inj_tail in E as (E & _). eauto.
Qed.

Lemma make_groups_ok : forall max, limit_ok max -> forall fuel deg current groups,
  inv (concat groups) current [] deg -> length ids <= fuel + length (concat groups) ->
  ordered groups -> Forall (fun g => g <> [] /\ within max g) groups ->
  exists groups' deg', make_groups fuel max (mkGraph dep deg) current groups = Ok groups'
    /\ inv (concat groups') [] [] deg' /\ ordered groups' /\ Forall (fun g => g <> [] /\ within max g) groups'.
Proof.
  intros max L fuel. induction fuel as [|fuel IH]; intros deg current groups V F O W; destruct current as [|b current]; cbn [make_groups];
    try (now exists groups, deg).
  - exfalso. pose proof (NoDup_incl_length (inv_nodup _ _ _ _ V) (inv_ids _ _ _ _ V)) as H. rewrite app_length in H. cbn in H. lia.
  - destruct (take_blocks_ok max (concat groups) (b :: current) [] [] deg L) as (deg' & nb & more & T & V2 & W2 & I2 & NE).
    + now rewrite app_nil_r.
    + destruct L as [->|L]; [now left|right; cbn; lia].
    + rewrite T. cbn [bind app] in *. assert (M : more <> []) by (apply NE; discriminate).
      destruct more as [|x more]; [congruence|]. cbn [assert_ok bind].
      assert (CE : concat (groups ++ [x :: more]) = concat groups ++ x :: more) by (rewrite concat_app; cbn; now rewrite app_nil_r).
      apply IH.
      * rewrite CE. destruct V2 as [N2 J2 C2 Z2]. cbn in N2, J2, Z2. constructor; cbn; rewrite ?app_nil_r; auto.
      * rewrite CE, app_length. cbn. lia.
      * apply ordered_snoc; auto. intros c w C Wr. apply (zero_all _ deg c); auto; [apply (inv_count _ _ _ _ V)|].
        apply I2 in C. apply (inv_zero _ _ _ _ V).
        -- apply (inv_ids _ _ _ _ V). apply in_app_iff. right. now rewrite app_nil_r.
        -- apply in_app_iff. right. now rewrite app_nil_r.
      * apply Forall_app. split; auto.
Qed.

Lemma groups_complete : forall P deg (h : nat -> nat), inv P [] [] deg ->
  (forall r, In r ids -> NoDup (ws r)) ->
  (forall r w, In w (ws r) -> In w ids /\ h w < h r) ->
  incl ids P.
Proof.
  intros P deg h V N A.
  assert (G : forall n r, h r < n -> In r ids -> In r P).
  { induction n as [|n IH]; [lia|]. intros r H R. pose proof (inv_zero _ _ _ _ V r R) as Z. rewrite !app_nil_r in Z. apply Z.
    pose proof (inv_count _ _ _ _ V r) as C.
    assert (T : taken P r = length (ws r)); [|lia]. unfold taken. rewrite nodup_fixed_point by auto. f_equal.
    clear C Z. assert (Q : forall w, In w (ws r) -> memb w P = true).
    { intros w W. apply memb_spec. destruct (A r w W). apply IH; auto. lia. }
    induction (ws r) as [|w l IHl]; auto. cbn. rewrite (Q w) by now left. f_equal. apply IHl. intros x X. apply Q. now right. }
  intros r R. now apply (G (S (h r))); auto.
Qed.
End Groups.

(** ** The edges of the blocks *)
Definition writes_history (blocks : list (nat * sblock)) : list (nat * bset * nat) :=
  flat_map (fun b => map (fun v => (fst v, snd v, fst b)) (sb_writes (snd b))) blocks.
Lemma writes_map_run : forall blocks, getBlocksWritesMap blocks = wm_run (writes_history blocks).
Proof.
  intros blocks. unfold getBlocksWritesMap, wm_run, writes_history. rewrite fold_left_flat_map. apply fold_left_fext.
  intros w b. now rewrite fold_left_map.
Qed.
Lemma in_history : forall blocks v s e, In (v, s, e) (writes_history blocks) <-> exists c, In (e, c) blocks /\ In (v, s) (sb_writes c).
Proof.
  intros blocks v s e. unfold writes_history. rewrite in_flat_map. split.
  - intros ((e' & c) & I & H). apply in_map_iff in H as ((v' & s') & E & H). cbn in *. inversion E; subst. eauto.
  - intros (c & I & H). exists (e, c). split; auto. apply in_map_iff. exists (v, s). auto.
Qed.

Definition block_edges (w : wmap) (b : nat * sblock) : list (nat * nat) :=
  flat_map (fun v => map (fun e => (e, fst b)) (map fst (wm_getWrites w (fst v) (snd v)))) (sb_reads (snd b)).
Definition all_edges (blocks : list (nat * sblock)) : list (nat * nat) := flat_map (block_edges (getBlocksWritesMap blocks)) blocks.
Lemma blocks_graph_edges : forall blocks, blocks_graph blocks = graph_of (all_edges blocks).
Proof.
  intros blocks. unfold blocks_graph, graph_of, all_edges. cbv zeta. rewrite fold_left_flat_map. apply fold_left_fext. intros g b.
  unfold block_edges. rewrite fold_left_flat_map. apply fold_left_fext. intros g' v.
  rewrite (fold_left_map _ _ _ add_edge (fun e => (e, fst b))). apply fold_left_fext. reflexivity.
Qed.

Section Blocks.
Variables (rank : nat -> nat) (blocks : list (nat * sblock)).
Hypothesis WF : well_formed rank blocks.
Hypothesis ND : NoDup (map fst blocks).

Lemma block_unique : forall i b c, In (i, b) blocks -> In (i, c) blocks -> b = c.
Proof.
  clear WF. induction blocks as [|[j d] l IH]; intros i b c; cbn; [intros []|]. inversion ND as [|? ? X N]; subst.
  intros [E|B] [F|C]; try (inversion E; subst); try (inversion F; subst); auto.
  - destruct X. now apply (in_map fst _ _ C).
  - destruct X. now apply (in_map fst _ _ B).
  - eauto.
Qed.

(** What a query of the writers returns. *)
Lemma query_spec : forall i b v q, In (i, b) blocks -> In (v, q) (sb_reads b) ->
  let r := map fst (wm_getWrites (getBlocksWritesMap blocks) v q) in
  NoDup r /\ forall e, In e r <-> exists c s, In (e, c) blocks /\ In (v, s) (sb_writes c) /\ common q s.
Proof.
  intros i b v q B Q. cbv zeta. rewrite writes_map_run. destruct WF as (W1 & W2). pose proof (W1 i b v q B (or_introl Q)) as RQ.
  destruct (rank v) as [|k] eqn:R.
  - subst. destruct (writes_scalar (writes_history blocks) v) as (A & F & L). pose proof (writes_scalar_in (writes_history blocks) v) as D.
    assert (U : forall e e', In (v, [], e) (writes_history blocks) -> In (v, [], e') (writes_history blocks) -> e = e').
    { intros e e' H H'. apply in_history in H as (c & C & H). apply in_history in H' as (c' & C' & H'). exact (W2 e c e' c' v C C' R H H'). }
    assert (M : forall e, In e (map fst (wm_getWrites (wm_run (writes_history blocks)) v [])) <-> In (v, [], e) (writes_history blocks)).
    { intros e. split; auto. intros H. destruct (wm_getWrites (wm_run (writes_history blocks)) v []) as [|[e' s] l] eqn:G.
      - exfalso. apply (proj1 A eq_refl). eauto.
      - left. apply U; auto. apply D. now left. }
    split.
    + destruct (wm_getWrites (wm_run (writes_history blocks)) v []) as [|[e s] [|? ?]]; cbn in *; [constructor|repeat constructor; intros []|lia].
    + intros e. rewrite M, in_history. split.
      * intros (c & C & H). exists c, []. split; auto. split; auto. now left.
      * intros (c & s & C & H & [(_ & ->)|(p & P & _)]); [eauto|]. destruct P as (x & [] & _).
  - destruct RQ as (NE & RQ). destruct (writes_array (writes_history blocks) v (S k) q) as (N & I & _); auto.
    + intros s e H. apply in_history in H as (c & C & H). pose proof (W1 e c v s C (or_intror H)) as RS. rewrite R in RS. tauto.
    + split; auto. intros e. rewrite I. split.
      * intros (s & p & H & P & P'). apply in_history in H as (c & C & H). exists c, s. split; auto. split; auto. right. eauto.
      * intros (c & s & C & H & [(-> & _)|(p & P & P')]); [congruence|]. exists s, p. rewrite in_history. eauto.
Qed.

Lemma edge_spec : forall w i, In (w, i) (all_edges blocks) <-> exists b c, In (i, b) blocks /\ In (w, c) blocks /\ reads_from b c.
Proof.
  intros w i. unfold all_edges. rewrite in_flat_map. split.
  - intros ((i' & b) & B & H). unfold block_edges in H. apply in_flat_map in H as ((v & q) & Q & H). cbn [fst snd] in *.
    apply in_map_iff in H as (e & E & H). inversion E; subst. apply (proj2 (query_spec i b v q B Q)) in H as (c & s & C & S & K).
    exists b, c. split; auto. split; auto. exists v, q. split; auto. eauto.
  - intros (b & c & B & C & v & q & Q & s & S & K). exists (i, b). split; auto. unfold block_edges. apply in_flat_map. exists (v, q). split; auto.
    cbn [fst snd]. apply in_map_iff. exists w. split; auto. apply (proj2 (query_spec i b v q B Q)). eauto.
Qed.

Lemma writers_spec : forall w i, In w (writers (all_edges blocks) i) <-> w <> i /\ exists b c, In (i, b) blocks /\ In (w, c) blocks /\ reads_from b c.
Proof. intros w i. rewrite in_writers, edge_spec. tauto. Qed.

Lemma writers_other : forall l i, ~ In i (map fst l) -> writers (flat_map (block_edges (getBlocksWritesMap blocks)) l) i = [].
Proof.
  intros l i H. destruct (writers _ i) as [|w r] eqn:E; auto. exfalso. assert (X : In w (w :: r)) by now left. rewrite <- E in X.
  apply in_writers in X as (X & _). apply in_flat_map in X as ((j & b) & B & X). unfold block_edges in X. apply in_flat_map in X as (v & _ & X).
  apply in_map_iff in X as (e & F & _). cbn in F. inversion F; subst. apply H. now apply (in_map fst _ _ B).
Qed.
Lemma writers_app : forall es fs i, writers (es ++ fs) i = writers es i ++ writers fs i.
Proof. intros es fs i. unfold writers, real_edges. now rewrite !filter_app, map_app. Qed.
Lemma writers_block : forall i b, In (i, b) blocks ->
  writers (all_edges blocks) i = filter (fun w => negb (Nat.eqb w i)) (flat_map (fun v => map fst (wm_getWrites (getBlocksWritesMap blocks) (fst v) (snd v))) (sb_reads b)).
Proof.
  intros i b B. apply in_split in B as (l1 & l2 & E). unfold all_edges. rewrite E at 2. rewrite flat_map_app. cbn [flat_map]. rewrite !writers_app.
  assert (N : ~ In i (map fst l1) /\ ~ In i (map fst l2)).
  { rewrite E, map_app in ND. cbn in ND. apply NoDup_remove_2 in ND. rewrite in_app_iff in ND. tauto. }
  rewrite (writers_other l1), (writers_other l2) by tauto. rewrite app_nil_r. cbn [app]. unfold block_edges. cbn [fst snd].
  induction (sb_reads b) as [|v l IH]; auto. cbn [flat_map]. rewrite writers_app, IH, filter_app. f_equal.
  induction (map fst (wm_getWrites (getBlocksWritesMap blocks) (fst v) (snd v))) as [|w r IHr]; auto.
  unfold writers, real_edges in *. cbn [map filter fst snd]. destruct (Nat.eqb w i) eqn:F; cbn [negb].
  - apply IHr.
  - cbn [filter fst snd map]. rewrite Nat.eqb_refl. cbn [map fst]. f_equal. apply IHr.
Qed.
Lemma filter_disjoint_nodup : forall (f : nat -> bool) (g : nat * bset -> list nat) l,
  (forall x, In x l -> NoDup (g x)) ->
  (forall l1 x l2 y l3, l = l1 ++ x :: l2 ++ y :: l3 -> forall e, f e = true -> In e (g x) -> In e (g y) -> False) ->
  NoDup (filter f (flat_map g l)).
Proof.
  intros f g l. induction l as [|x l IH]; intros N D; [constructor|]. cbn [flat_map]. rewrite filter_app. apply NoDup_app_intro.
  - apply NoDup_filter, N. now left.
  - apply IH; [intros y Y; apply N; now right|]. intros l1 y l2 z l3 E. apply (D (x :: l1) y l2 z l3). now rewrite E.
  - intros e E1 E2. apply filter_In in E1 as (E1 & F). apply filter_In in E2 as (E2 & _). apply in_flat_map in E2 as (y & Y & E2).
    apply in_split in Y as (l2 & l3 & Y). apply (D [] x l2 y l3) with e; auto. cbn. now rewrite Y.
Qed.
Lemma writers_nodup : one_link blocks -> forall i, In i (map fst blocks) -> NoDup (writers (all_edges blocks) i).
Proof.
  intros OL i I. apply in_map_iff in I as ((i' & b) & E & B). cbn in E. subst. rewrite (writers_block i b B). apply filter_disjoint_nodup.
  - intros (v & q) Q. apply (query_spec i b v q B Q).
  - intros l1 (v & q) l2 (v' & q') l3 E e F X Y. cbn [fst snd] in *.
    assert (Q : In (v, q) (sb_reads b)) by (rewrite E; apply in_app_iff; right; now left).
    assert (Q' : In (v', q') (sb_reads b)) by (rewrite E; apply in_app_iff; right; right; apply in_app_iff; right; now left).
    apply (proj2 (query_spec i b v q B Q)) in X as (c & s & C & S & K). apply (proj2 (query_spec i b v' q' B Q')) in Y as (c' & s' & C' & S' & K').
    rewrite (block_unique e c' c C' C) in S'. apply negb_true_iff, Nat.eqb_neq in F.
    apply (OL i b e c v q v' q' l1 l2 l3 B C); auto. split; split; eauto.
Qed.

Definition order_ok (groups : list (list nat)) : Prop :=
  forall before g after, groups = before ++ g :: after ->
    forall i b j c, In i g -> In (i, b) blocks -> In (j, c) blocks -> i <> j -> reads_from b c -> In j (concat before).

Lemma initial_inv : let es := all_edges blocks in
  inv (writers es) (map fst blocks) [] (filter (fun b => Nat.eqb (inDegrees (graph_of es) b) 0) (map fst blocks)) [] (inDegrees (graph_of es)).
Proof.
  cbv zeta. destruct (graph_of_spec (all_edges blocks)) as (D & _ & _). constructor; cbn [app]; rewrite ?app_nil_r.
  - now apply NoDup_filter.
  - intros x X. now apply filter_In in X.
  - intros r. rewrite D. unfold taken. replace (length (filter (fun w => memb w []) _)) with 0; [lia|].
    symmetry. apply length_zero_iff_nil. induction (nodup Nat.eq_dec _); auto.
  - intros r R. rewrite filter_In, Nat.eqb_eq. tauto.
Qed.
Lemma writers_ids : forall w i, In w (writers (all_edges blocks) i) -> In w (map fst blocks) /\ In i (map fst blocks).
Proof.
  intros w i H. apply writers_spec in H as (_ & b & c & B & C & _). split; [apply (in_map fst _ _ C)|apply (in_map fst _ _ B)].
Qed.
Lemma parallelize_ok : forall max, limit_ok max -> exists groups deg, parallelizeBlocks max blocks = Ok groups
  /\ inv (writers (all_edges blocks)) (map fst blocks) (concat groups) [] [] deg
  /\ order_ok groups /\ Forall (fun g => g <> [] /\ within max g) groups.
Proof.
  intros max L. unfold parallelizeBlocks. cbv zeta. rewrite blocks_graph_edges. destruct (graph_of_spec (all_edges blocks)) as (D & N & I).
  pose proof initial_inv as V. cbv zeta in V.
  destruct (make_groups_ok (dependantBlocks (graph_of (all_edges blocks))) (writers (all_edges blocks)) (map fst blocks) N I) with
    (max := max) (fuel := length blocks) (deg := inDegrees (graph_of (all_edges blocks)))
    (current := filter (fun b => Nat.eqb (inDegrees (graph_of (all_edges blocks)) b) 0) (map fst blocks)) (groups := @nil (list nat))
    as (groups & deg & M & V' & O & W); auto.
  - intros w r R. apply I in R. now apply (writers_ids w r).
  - cbn. rewrite map_length. lia.
  - intros before g after E. destruct before; discriminate.
  - exists groups, deg. split; [destruct (graph_of (all_edges blocks)); exact M|]. split; auto. split; auto.
    intros before g after E i b j c G B C NE R. apply (O before g after E i j G). apply writers_spec. split; [congruence|]. eauto.
Qed.

(** If no block is read through two variables and the order of the blocks was
    valid, all the blocks are in the groups. *)
Definition in_order : Prop := forall l1 l2 i b j c, blocks = l1 ++ (i, b) :: l2 -> In (j, c) blocks -> i <> j -> reads_from b c -> In (j, c) l1.
Lemma parallelize_complete : forall groups deg, one_link blocks -> in_order ->
  inv (writers (all_edges blocks)) (map fst blocks) (concat groups) [] [] deg -> Permutation (concat groups) (map fst blocks).
Proof.
  intros groups deg OL IO V. pose proof (inv_nodup _ _ _ _ _ _ V) as N. pose proof (inv_ids _ _ _ _ _ _ V) as I. rewrite !app_nil_r in N, I.
  apply NoDup_Permutation; auto. intros x. split; [apply I|].
  assert (POS : exists h : nat -> nat, forall l1 l2 i, map fst blocks = l1 ++ i :: l2 -> h i = length l1).
  { clear - ND. induction (map fst blocks) as [|y l IH].
    - exists (fun _ => 0). intros [|? ?]; discriminate.
    - inversion ND as [|? ? X N']; subst. destruct (IH N') as (h & H). exists (fun i => if Nat.eqb i y then 0 else S (h i)).
      intros [|z l1] l2 i E; cbn in E; inversion E; subst.
      + now rewrite Nat.eqb_refl.
      + destruct (Nat.eqb_spec i z); [|cbn; now rewrite (H l1 l2 i)]. subst. destruct X. apply in_app_iff. right. now left. }
  destruct POS as (h & H).
  apply (groups_complete (writers (all_edges blocks)) (map fst blocks) (concat groups) deg h V); [now apply writers_nodup|].
  intros r w W. split; [now apply (writers_ids w r)|]. apply writers_spec in W as (NE & b & c & B & C & R).
  apply in_split in B as (l1 & l2 & E). pose proof (IO l1 l2 r b w c E C (not_eq_sym NE) R) as L.
  apply in_split in L as (l3 & l4 & L). rewrite (H (map fst l1) (map fst l2) r) by (rewrite E, map_app; reflexivity).
  rewrite (H (map fst l3) (map fst l4 ++ r :: map fst l2) w) by (rewrite E, L, !map_app; cbn; now rewrite <- app_assoc).
  rewrite L, map_app, app_length. cbn. lia.
Qed.
End Blocks.

(** ** The pass *)
Definition op_entry (o : sop) : nat * sblock := (op_id o, op_block o).
Lemma existsb_all : forall ids l, incl ids l -> filter (fun b => negb (existsb (Nat.eqb b) l)) ids = [].
Proof.
  induction ids as [|x ids IH]; intros l I; auto. cbn [filter]. assert (X : memb x l = true) by (apply memb_spec, I; now left).
  unfold memb in X. rewrite X. cbn. apply IH. intros y Y. apply I. now right.
Qed.
Lemma well_formed_incl : forall rank l l', incl l l' -> well_formed rank l' -> well_formed rank l.
Proof. intros rank l l' I (A & B). split; intros; [eapply A|eapply B]; eauto. Qed.
Lemma one_link_incl : forall l l', incl l l' -> one_link l' -> one_link l.
Proof. intros l l' I H i b j c v q v' q' l1 l2 l3 B C. apply H; auto. Qed.
Lemma nodup_fst_eq : forall (l : list (nat * sblock)) i b c, NoDup (map fst l) -> In (i, b) l -> In (i, c) l -> b = c.
Proof. intros l i b c N. now apply block_unique. Qed.

Lemma flush_ok : forall rank max blocks, limit_ok max -> well_formed rank blocks -> NoDup (map fst blocks) -> one_link blocks -> in_order blocks ->
  exists groups, flush max blocks = Ok (map Group groups) /\ Permutation (concat groups) (map fst blocks)
    /\ order_ok blocks groups /\ Forall (fun g => g <> [] /\ within max g) groups.
Proof.
  intros rank max blocks L WF ND OL IO. destruct (parallelize_ok rank blocks WF ND max L) as (groups & deg & P & V & O & W).
  pose proof (parallelize_complete rank blocks WF ND groups deg OL IO V) as PE. exists groups. unfold flush. rewrite P. cbn [bind].
  unfold place_groups. rewrite existsb_all; [auto|]. intros x X. now apply (Permutation_in _ (Permutation_sym PE)).
Qed.

Lemma item_ops_group : forall groups, map item_ops (map Group groups) = groups.
Proof. induction groups as [|g l IH]; cbn; f_equal; auto. Qed.

Lemma valid_app : forall all steps1 steps2, valid all steps1 ->
  (forall before step after, steps2 = before ++ step :: after -> forall i b j c, In i step -> In (i, b) all -> In (j, c) all -> i <> j ->
     reads_from b c -> In j (concat (steps1 ++ before))) ->
  valid all (steps1 ++ steps2).
Proof.
  intros all steps1 steps2 V1 V2 before step after E i b j c I B C N R.
  assert (D : (exists a, steps1 = before ++ step :: a) \/ exists b2, before = steps1 ++ b2 /\ steps2 = b2 ++ step :: after).
  { clear - E. revert before E. induction steps1 as [|x l IH]; intros before E; cbn in E.
    - right. exists before. auto.
    - destruct before as [|y before]; cbn in E; inversion E; subst.
      + left. exists l. reflexivity.
      + destruct (IH before H1) as [(a & ->)|(b2 & -> & ->)]; [left; now exists a|right; now exists b2]. }
  destruct D as [(a & E1)|(b2 & -> & E2)]; [exact (V1 before step a E1 i b j c I B C N R)|exact (V2 b2 step after E2 i b j c I B C N R)].
Qed.

Section Pass.
Variables (rank : nat -> nat) (max : Z) (all : list sop).
Let entries := map op_entry all.
Hypothesis L : limit_ok max.
Hypothesis WF : well_formed rank entries.
Hypothesis ND : NoDup (map fst entries).
Hypothesis OL : one_link (map op_entry (filter op_parallelizable all)).
Hypothesis IO : in_order entries.

Lemma flush_chunk : forall pre blocks post done, entries = pre ++ blocks ++ post ->
  incl blocks (map op_entry (filter op_parallelizable all)) ->
  Permutation (concat (map item_ops done)) (map fst pre) -> valid entries (map item_ops done) ->
  exists groups, flush max blocks = Ok (map Group groups)
    /\ Permutation (concat (map item_ops (done ++ map Group groups))) (map fst (pre ++ blocks))
    /\ valid entries (map item_ops (done ++ map Group groups))
    /\ Forall (fun g => g <> [] /\ within max g) groups.
Proof.
  intros pre blocks post done E I P V.
  assert (SUB : incl blocks entries) by (intros x X; rewrite E; apply in_app_iff; right; apply in_app_iff; now left).
  assert (NDb : NoDup (map fst blocks)).
  { rewrite E, !map_app in ND. apply NoDup_app_r in ND. now apply NoDup_app_l in ND. }
  assert (IOb : in_order blocks).
  { intros l1 l2 i b j c F C N R. assert (In (j, c) (pre ++ l1)) as X.
    { apply (IO (pre ++ l1) (l2 ++ post) i b j c); auto. rewrite E, F. repeat (rewrite <- app_assoc; cbn). reflexivity. }
    apply in_app_iff in X as [X|X]; auto. exfalso. rewrite E, !map_app in ND. apply (NoDup_app_disj _ _ _ j ND).
    - now apply (in_map fst _ _ X).
    - apply in_app_iff. left. now apply (in_map fst _ _ C). }
  destruct (flush_ok rank max blocks L (well_formed_incl _ _ _ SUB WF) NDb (one_link_incl _ _ I OL) IOb) as (groups & F & PE & O & W).
  exists groups. split; auto. rewrite !map_app, item_ops_group. split; [|split]; auto.
  - rewrite concat_app. now apply Permutation_app.
  - apply valid_app; auto. intros before step after G i b j c S B C N R. rewrite concat_app. apply in_app_iff.
    assert (Ib : In (i, b) blocks).
    { assert (X : In i (map fst blocks)).
      { apply (Permutation_in _ PE). rewrite G, concat_app. apply in_app_iff. right. cbn. apply in_app_iff. now left. }
      apply in_map_iff in X as ((i' & b') & X & Y). cbn in X. subst i'. rewrite (nodup_fst_eq entries i b b'); auto. }
    apply in_split in Ib as (l1 & l2 & Eb).
    assert (X : In (j, c) (pre ++ l1)).
    { apply (IO (pre ++ l1) (l2 ++ post) i b j c); auto. rewrite E, Eb. repeat (rewrite <- app_assoc; cbn). reflexivity. }
    apply in_app_iff in X as [X|X].
    + left. apply (Permutation_in _ (Permutation_sym P)). now apply (in_map fst _ _ X).
    + right. apply (O before step after G i b j c); auto; rewrite Eb; apply in_app_iff; [right; now left|now left].
Qed.

Definition item_ok (i : sitem) : Prop := match i with Single _ => True | Group g => g <> [] /\ within max g end.
Lemma groups_items : forall groups, Forall (fun g => g <> [] /\ within max g) groups -> Forall item_ok (map Group groups).
Proof. intros groups H. apply Forall_map. eapply Forall_impl; [|eassumption]. auto. Qed.

Lemma process_ok : forall ops blocks done pre, entries = pre ++ blocks ++ map op_entry ops ->
  incl blocks (map op_entry (filter op_parallelizable all)) -> incl ops all ->
  Permutation (concat (map item_ops done)) (map fst pre) -> valid entries (map item_ops done) -> Forall item_ok done ->
  exists items, processOps max ops blocks done = Ok items
    /\ Permutation (concat (map item_ops items)) (map fst entries) /\ valid entries (map item_ops items) /\ Forall item_ok items.
Proof.
  induction ops as [|o ops IH]; intros blocks done pre E I SUB P V W; cbn [processOps].
  - destruct (flush_chunk pre blocks [] done E I P V) as (groups & F & P' & V' & W'). rewrite F. cbn [bind].
    exists (done ++ map Group groups). split; auto. split; [|split]; auto.
    + cbn in E. rewrite app_nil_r in E. now rewrite E.
    + apply Forall_app. split; auto. now apply groups_items.
  - destruct (op_parallelizable o) eqn:PO.
    + apply (IH (blocks ++ [(op_id o, op_block o)]) done pre); auto.
      * rewrite E. cbn. now rewrite <- app_assoc.
      * intros x X. apply in_app_iff in X as [X|[<-|[]]]; auto. apply (in_map op_entry). apply filter_In. split; auto. apply SUB. now left.
      * intros x X. apply SUB. now right.
    + destruct (flush_chunk pre blocks (map op_entry (o :: ops)) done E I P V) as (groups & F & P' & V' & W'). rewrite F. cbn [bind].
      apply (IH [] (done ++ map Group groups ++ [Single (op_id o)]) (pre ++ blocks ++ [op_entry o])).
      * rewrite E. cbn. now rewrite <- !app_assoc.
      * intros x [].
      * intros x X. apply SUB. now right.
      * rewrite app_assoc, map_app, concat_app, (app_assoc pre), (map_app fst (pre ++ blocks)). apply Permutation_app; auto.
      * rewrite app_assoc, (map_app item_ops (done ++ map Group groups)). apply valid_app; auto.
        intros before step after G i b j c S B C N R. destruct before as [|y before]; cbn in G; inversion G; subst; [|destruct before; discriminate].
        destruct S as [<-|[]]. rewrite app_nil_r. apply (Permutation_in _ (Permutation_sym P')).
        assert (Bo : b = op_block o).
        { apply (nodup_fst_eq entries (op_id o)); auto. rewrite E. apply in_app_iff. right. apply in_app_iff. right. now left. }
        subst. assert (X : In (j, c) (pre ++ blocks)).
        { apply (IO (pre ++ blocks) (map op_entry ops) (op_id o) (op_block o) j c); auto. rewrite E. cbn. now rewrite <- app_assoc. }
        now apply (in_map fst _ _ X).
      * apply Forall_app. split; auto. apply Forall_app. split; [now apply groups_items|]. repeat constructor.
Qed.
End Pass.
