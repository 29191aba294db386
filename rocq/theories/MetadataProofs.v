(** Proofs about the description of a compiled model. *)

From Coq Require Import List Arith ZArith Bool String Permutation Lia.
From Verif Require Import RangeModel MDRangeModel Spec Result RTreeModel IndexSetModel IndexSetIterModel
  IndexSetSpec RangeProofs MDRangeProofs IndexSetHistProofs MetadataModel MetadataSpec.
Import ListNotations.
Local Open Scope nat_scope.

(** ** Reserved names *)
Lemma prefix_app : forall p s, String.prefix p s = true <-> exists r, s = (p ++ r)%string.
Proof.
  induction p as [|c p IH]; intros s.
  - split; [intros _; now exists s | intros _; now destruct s].
  - destruct s as [|c' s]; [split; [discriminate | intros (r & Hr); discriminate]|].
    cbn [String.prefix String.append]. destruct (Ascii.ascii_dec c c') as [E|N].
    + subst c'. specialize (IH s). split.
      * intros H. apply IH in H as (r & ->). now exists r.
      * intros (r & Hr). apply IH. exists r. congruence.
    + split; [discriminate | intros (r & Hr); congruence].
Qed.
Lemma reserved_iff : forall n, isReserved n = true <-> reserved n.
Proof. intros n. apply prefix_app. Qed.
Lemma not_reserved : forall n, isReserved n = false <-> ~ reserved n.
Proof. intros n. rewrite <- reserved_iff. destruct (isReserved n); split; congruence. Qed.

(** ** Switches *)
Lemma switch_enum : forall {B} (d : B) l i x,
  switch d (enum_from i l) (Z.of_nat (i + x)) = nth x l d.
Proof.
  induction l as [|b l IH]; intros i x; cbn [enum_from switch nth]; [now destruct x|].
  destruct x as [|x].
  - now rewrite Nat.add_0_r, Z.eqb_refl.
  - replace (Z.of_nat i =? Z.of_nat (i + S x))%Z with false by lia.
    replace (i + S x) with (S i + x) by lia. apply IH.
Qed.
Lemma switch_enum0 : forall {B} (d : B) l x, switch d (enum_from 0 l) (Z.of_nat x) = nth x l d.
Proof. intros. apply (switch_enum d l 0 x). Qed.
Lemma switch_none : forall {B} (d : B) cs x, ~ In x (map fst cs) -> switch d cs x = d.
Proof.
  induction cs as [|[c b] cs IH]; intros x H; cbn in *; auto.
  destruct (c =? x)%Z eqn:E; [exfalso; apply H; left; lia | apply IH; tauto].
Qed.
Lemma switch_in : forall {B} (d : B) cs x b, NoDup (map fst cs) -> In (x, b) cs -> switch d cs x = b.
Proof.
  induction cs as [|[c b'] cs IH]; intros x b ND H; cbn in *; [contradiction|].
  inversion ND; subst. destruct H as [E|H].
  - injection E as -> ->. now rewrite Z.eqb_refl.
  - destruct (c =? x)%Z eqn:E; [|now apply IH].
    exfalso. apply H2. replace c with x by lia. now apply (in_map fst) in H.
Qed.
Lemma enum_keys : forall {B} (l : list B) i x, In x (map fst (enum_from i l)) -> (Z.of_nat i <= x < Z.of_nat (i + List.length l))%Z.
Proof.
  induction l as [|b l IH]; intros i x H; cbn in *; [contradiction|].
  destruct H as [<-|H]; [lia | apply IH in H; lia].
Qed.
Lemma switch_enum_out : forall {B} (d : B) l x, (x < 0 \/ Z.of_nat (List.length l) <= x)%Z -> switch d (enum_from 0 l) x = d.
Proof. intros B d l x H. apply switch_none. intros H'. apply enum_keys in H'. lia. Qed.

(** ** The lists have the entry of the variable number [i] at position [i] *)
Section Entry.
Context {B : Type}.
Variable f : variable -> B.
Fixpoint entries (vs : list variable) : list B :=
  match vs with
  | [] => []
  | v :: vs' => if isReserved (v_name v) then entries vs' else f v :: entries vs'
  end.
Lemma entries_nth : forall vs i v, nth_public vs i v -> nth_error (entries vs) i = Some (f v).
Proof.
  induction 1 as [v vs H | u vs i v H _ IH | u vs i v H _ IH]; cbn.
  - apply not_reserved in H. now rewrite H.
  - apply not_reserved in H. now rewrite H.
  - apply reserved_iff in H. now rewrite H.
Qed.
Lemma entries_inv : forall vs i b, nth_error (entries vs) i = Some b -> exists v, nth_public vs i v /\ b = f v.
Proof.
  induction vs as [|u vs IH]; intros i b H; cbn in H; [now destruct i|].
  destruct (isReserved (v_name u)) eqn:E.
  - destruct (IH _ _ H) as (v & Hv & ->). exists v. split; auto. apply np_skip; auto. now apply reserved_iff.
  - apply not_reserved in E. destruct i as [|i]; cbn in H.
    + injection H as <-. exists u. split; auto. now apply np_here.
    + destruct (IH _ _ H) as (v & Hv & ->). exists v. split; auto. now apply np_next.
Qed.
End Entry.
Lemma names_entries : forall vs, variableNames vs = entries v_name vs.
Proof. reflexivity. Qed.
Lemma ranks_entries : forall vs, variableRanks vs = entries v_rank vs.
Proof. reflexivity. Qed.
Lemma getters_entries : forall K vs, @variableGetters K vs = entries getter vs.
Proof. reflexivity. Qed.
Lemma infos_entries : forall info vs, printableIndices info vs = entries info vs.
Proof. induction vs as [|v vs IH]; cbn; auto. now rewrite IH. Qed.
Lemma entries_length : forall B (f : variable -> B) vs, List.length (entries f vs) = numOfVariables vs.
Proof. induction vs as [|v vs IH]; cbn; auto. destruct (isReserved (v_name v)); cbn; auto. Qed.

Lemma public_lt : forall vs i, i < numOfVariables vs <-> exists v, nth_public vs i v.
Proof.
  intros vs i. rewrite <- (entries_length _ v_name). split.
  - intros H. destruct (nth_error (entries v_name vs) i) eqn:E; [|apply nth_error_None in E; lia].
    destruct (entries_inv _ _ _ _ E) as (v & Hv & _). now exists v.
  - intros (v & Hv). apply (entries_nth v_name) in Hv. apply nth_error_Some. congruence.
Qed.
Lemma public_fun : forall vs i v w, nth_public vs i v -> nth_public vs i w -> v = w.
Proof.
  intros vs i v w Hv Hw. apply (entries_nth (fun v => v)) in Hv. apply (entries_nth (fun v => v)) in Hw. congruence.
Qed.
Lemma public_in : forall vs v, (In v vs /\ ~ reserved (v_name v)) <-> exists i, nth_public vs i v.
Proof.
  intros vs v. split.
  - intros [H N]. induction vs as [|u vs IH]; [contradiction|].
    destruct H as [->|H]; [exists 0; now apply np_here|].
    destruct (IH H) as (i & Hi). destruct (isReserved (v_name u)) eqn:E.
    + exists i. apply np_skip; auto. now apply reserved_iff.
    + exists (S i). apply np_next; auto. now apply not_reserved.
  - intros (i & H). induction H; cbn; tauto.
Qed.
Lemma public_inj : forall vs i j v w, NoDup (map v_name vs) -> nth_public vs i v -> nth_public vs j w ->
  v_name v = v_name w -> i = j.
Proof.
  intros vs i j v w ND Hi. revert j w.
  assert (X : forall vs i v, nth_public vs i v -> In (v_name v) (map v_name vs)).
  { intros ? ? ? H. apply in_map. apply (proj2 (public_in _ _) (ex_intro _ _ H)). }
  induction Hi as [v vs H | u vs i v H Hi IH | u vs i v H Hi IH]; intros j w Hj E;
    cbn in ND; inversion ND; subst; inversion Hj; subst; auto; try contradiction.
  all: try (exfalso; match goal with H : nth_public _ _ _ |- _ => apply X in H; congruence end).
  - f_equal. eapply IH; eauto.
  - eapply IH; eauto.
Qed.

Lemma nth_nth_error : forall {B} (l : list B) i b d, nth_error l i = Some b -> nth i l d = b.
Proof. intros. now apply nth_error_nth. Qed.

(** ** Derivatives *)
Lemma positions_app : forall vs i m, exists m', positions i vs m = m' ++ m
  /\ (forall n, position_of n m' = position_of n (positions i vs [])).
Proof.
  assert (G : forall vs i m m2, positions i vs (m ++ m2) = positions i vs m ++ m2).
  { induction vs as [|v vs IH]; intros i m m2; cbn; auto. apply (IH (S i) ((v_name v, i) :: m) m2). }
  intros vs i m. exists (positions i vs []). split; auto. apply (G vs i [] m).
Qed.
Lemma position_app : forall n m m', position_of n (m ++ m') = match position_of n m with Some i => Some i | None => position_of n m' end.
Proof. induction m as [|[k i] m IH]; intros m'; cbn; auto. destruct (String.eqb k n); auto. Qed.
Lemma positions_cons : forall i v vs n, position_of n (positions i (v :: vs) [])
  = match position_of n (positions (S i) vs []) with Some j => Some j | None => if String.eqb (v_name v) n then Some i else None end.
Proof.
  intros i v vs n. cbn [positions]. destruct (positions_app vs (S i) [(v_name v, i)]) as (m' & -> & H).
  rewrite position_app, H. now cbn.
Qed.
Lemma position_none : forall vs i n, ~ In n (map v_name vs) -> position_of n (positions i vs []) = None.
Proof.
  induction vs as [|v vs IH]; intros i n H; [reflexivity|]. rewrite positions_cons. cbn in H.
  rewrite IH by tauto. destruct (String.eqb_spec (v_name v) n); auto. tauto.
Qed.
(** The position of a name is the number of variables before it. *)
Lemma position_split : forall us v vs i, NoDup (map v_name (us ++ v :: vs)) ->
  position_of (v_name v) (positions i (us ++ v :: vs) []) = Some (i + List.length us).
Proof.
  induction us as [|u us IH]; intros v vs i ND; cbn [app]; rewrite positions_cons; cbn in ND; inversion ND; subst.
  - rewrite position_none by auto. rewrite String.eqb_refl. f_equal. cbn. lia.
  - rewrite IH by auto. f_equal. cbn. lia.
Qed.

Definition der_entry (m : list (string * nat)) (der : string -> option string) (v : variable) : Z :=
  match der (v_name v) with
  | Some d => match position_of d m with Some i => Z.of_nat i | None => 0%Z end
  | None => (-1)%Z
  end.
Lemma derivatives_entries : forall m der vs ds, derivatives_loop m der vs = Some ds -> ds = entries (der_entry m der) vs.
Proof.
  intros m der. induction vs as [|v vs IH]; intros ds H; cbn in *; [congruence|].
  destruct (isReserved (v_name v)); [auto|]. unfold der_entry at 1.
  destruct (der (v_name v)) as [d|].
  - destruct (position_of d m); [|discriminate]. destruct (derivatives_loop m der vs); [|discriminate].
    cbn in H. injection H as <-. f_equal. auto.
  - destruct (derivatives_loop m der vs); [|discriminate]. cbn in H. injection H as <-. f_equal. auto.
Qed.
Lemma public_split : forall vs i v, nth_public vs i v -> exists us ws, vs = us ++ v :: ws
  /\ i = numOfVariables us.
Proof.
  induction 1 as [v vs H | u vs i v H _ IH | u vs i v H _ IH].
  - now exists [], vs.
  - destruct IH as (us & ws & -> & ->). exists (u :: us), ws. split; auto. cbn.
    apply not_reserved in H. now rewrite H.
  - destruct IH as (us & ws & -> & ->). exists (u :: us), ws. split; auto. cbn.
    apply reserved_iff in H. now rewrite H.
Qed.
Lemma num_all : forall us, Forall (fun u => ~ reserved (v_name u)) us -> numOfVariables us = List.length us.
Proof.
  induction 1 as [|u us H _ IH]; cbn; auto. apply not_reserved in H. now rewrite H, IH.
Qed.

(** ** Sets and maps over an order *)
Section Ord.
Context {A B : Type}.
Variable lt : A -> A -> bool.
Hypothesis lt_total : forall a b, lt a b = false -> lt b a = false -> a = b.
Hypothesis lt_irrefl : forall a, lt a a = false.
Lemma set_insert_in : forall x y s, In y (set_insert lt x s) <-> y = x \/ In y s.
Proof.
  induction s as [|z s IH]; cbn; [intuition congruence|].
  destruct (lt x z) eqn:E1; [cbn; intuition congruence|].
  destruct (lt z x) eqn:E2; cbn; [rewrite IH; intuition congruence|].
  rewrite (lt_total _ _ E1 E2). intuition congruence.
Qed.
Lemma set_build : forall l s y, In y (fold_left (fun s x => set_insert lt x s) l s) <-> In y l \/ In y s.
Proof.
  induction l as [|x l IH]; intros s y; cbn; [tauto|]. rewrite IH, set_insert_in. intuition congruence.
Qed.
Lemma map_find_image : forall (g : A -> B) s x, In x s -> map_find lt x (map (fun a => (a, g a)) s) = Some (g x).
Proof.
  induction s as [|y s IH]; intros x H; [contradiction|]. cbn. unfold same_key.
  destruct (lt y x) eqn:E1, (lt x y) eqn:E2; cbn;
    try (destruct H as [->|H]; [rewrite lt_irrefl in *; discriminate | auto]; fail).
  now rewrite (lt_total _ _ E1 E2).
Qed.
End Ord.
Lemma range_lt_total : forall a b, range_lt a b = false -> range_lt b a = false -> a = b.
Proof. intros [a b] [c d]. unfold range_lt. cbn. intros H K. destruct (Z.eqb_spec a c), (Z.eqb_spec c a); f_equal; lia. Qed.
Lemma range_lt_irrefl : forall a, range_lt a a = false.
Proof. intros [a b]. unfold range_lt. cbn. rewrite Z.eqb_refl. lia. Qed.
Lemma mdrange_lt_total : forall a b, mdrange_lt a b = false -> mdrange_lt b a = false -> a = b.
Proof. intros a b H K. unfold mdrange_lt in *. apply mdrange_compare_0. rewrite (mdrange_compare_antisym b a) in *. lia. Qed.
Lemma mdrange_lt_irrefl : forall a, mdrange_lt a a = false.
Proof. intros a. unfold mdrange_lt. rewrite (proj2 (mdrange_compare_0 a a) eq_refl). reflexivity. Qed.

(** ** The bounds of the boxes *)
Lemma uniqueRanges_in : forall m i bs b r, In (i, bs) m -> In b bs -> In r b -> In r (uniqueRanges m).
Proof.
  intros m i bs b r H1 H2 H3. unfold uniqueRanges. apply (set_build _ range_lt_total). left.
  apply in_flat_map. exists (i, bs). split; auto. cbn. apply in_flat_map. exists b. auto.
Qed.
Lemma uniqueBoxes_in : forall m i bs b, In (i, bs) m -> In b bs -> In b (uniqueBoxes m).
Proof.
  intros m i bs b H1 H2. unfold uniqueBoxes. apply (set_build _ mdrange_lt_total). left.
  apply in_flat_map. exists (i, bs). auto.
Qed.
Lemma boundary_value : forall bound (m : list (nat * list mdrange)) i (bs : list mdrange) r d (b : mdrange) x, NoDup (map fst m) -> In (i, bs) m ->
  nth_error bs r = Some b -> nth_error b d = Some x ->
  rangeBoundary bound m (Z.of_nat i) (Z.of_nat r) (Z.of_nat d) = Some (bound x).
Proof.
  intros bound m i bs r d b x ND Hm Hb Hx. unfold rangeBoundary, variableBlocks.
  match goal with |- context [map ?F m] =>
    rewrite (switch_in _ (map F m) (Z.of_nat i) (snd (F (i, bs)))); [| | exact (in_map F m (i, bs) Hm)] end.
  2:{ rewrite map_map. cbn [fst]. rewrite <- (map_map fst Z.of_nat). apply FinFun.Injective_map_NoDup; auto.
      intros a c E. lia. }
  cbn [snd fst]. rewrite switch_enum0. apply nth_nth_error. rewrite nth_error_map, Hb. cbn [option_map]. f_equal.
  pose proof (nth_error_In _ _ Hb) as Ib. pose proof (nth_error_In _ _ Hx) as Ix.
  unfold boxBlocks. rewrite (map_find_image _ mdrange_lt_total mdrange_lt_irrefl)
    by (eapply uniqueBoxes_in; eauto).
  rewrite switch_enum0. apply nth_nth_error. rewrite nth_error_map, Hx. cbn [option_map]. f_equal.
  unfold rangeBlocks. apply (map_find_image _ range_lt_total range_lt_irrefl). eapply uniqueRanges_in; eauto.
Qed.

(** ** The number of boxes *)
Definition group_cases (g : list (nat * list nat)) : list (Z * Z) :=
  flat_map (fun e => map (fun v => (Z.of_nat v, Z.of_nat (fst e))) (snd e)) g.
Lemma group_insert_perm : forall n v g,
  Permutation (group_cases (group_insert n v g)) ((Z.of_nat v, Z.of_nat n) :: group_cases g).
Proof.
  intros n v. induction g as [|[k l] g IH]; cbn; auto.
  destruct (Nat.eqb_spec k n) as [->|N]; cbn; auto.
  rewrite IH. symmetry. apply Permutation_middle.
Qed.
Lemma groups_perm : forall m g, Forall (fun e => snd e <> []) m ->
  Permutation (group_cases (groups m g))
    (map (fun e : nat * list mdrange => (Z.of_nat (fst e), Z.of_nat (List.length (snd e)))) m ++ group_cases g).
Proof.
  induction m as [|[v bs] m IH]; intros g H; cbn; auto. inversion H; subst. cbn in H2.
  rewrite IH by auto. destruct bs as [|b bs]; [congruence|].
  rewrite group_insert_perm. symmetry. apply Permutation_middle.
Qed.
Lemma num_value : forall m i bs, NoDup (map fst m) -> Forall (fun e => snd e <> []) m -> In (i, bs) m ->
  getVariableNumOfPrintableRanges m (Z.of_nat i) = Z.of_nat (List.length bs).
Proof.
  intros m i bs ND NE H. unfold getVariableNumOfPrintableRanges. fold (group_cases (groups m [])).
  pose proof (groups_perm m [] NE) as P. cbn in P. rewrite app_nil_r in P.
  apply switch_in.
  - apply (Permutation_map fst) in P. eapply Permutation_NoDup; [symmetry; exact P|].
    rewrite map_map. cbn. rewrite <- (map_map fst Z.of_nat). apply FinFun.Injective_map_NoDup; auto. intros a c E; lia.
  - eapply Permutation_in; [symmetry; exact P|]. apply in_map_iff. now exists (i, bs).
Qed.
Lemma num_none : forall m x, Forall (fun e => snd e <> []) m -> (forall i, x = Z.of_nat i -> ~ In i (map fst m)) ->
  getVariableNumOfPrintableRanges m x = 0%Z.
Proof.
  intros m x NE H. unfold getVariableNumOfPrintableRanges. fold (group_cases (groups m [])).
  pose proof (groups_perm m [] NE) as P. cbn in P. rewrite app_nil_r in P.
  apply switch_none. intros K. apply (Permutation_in _ (Permutation_map fst P)) in K.
  rewrite map_map in K. apply in_map_iff in K as ([i bs] & <- & K). cbn in H.
  apply (H i eq_refl). now apply (in_map fst) in K.
Qed.

(** ** The map of the printable indices *)
Lemma map_keys : forall l i m, printableMap i l = Ok m -> NoDup (map fst m) /\ forall k, In k (map fst m) -> i <= k.
Proof.
  induction l as [|p l IH]; intros i m H; cbn in H.
  - injection H as <-. split; [constructor | intros k []].
  - assert (X : printableMap (S i) l = Ok m -> NoDup (map fst m) /\ forall k, In k (map fst m) -> i <= k).
    { intros H'. apply IH in H' as [H1 H2]. split; auto. intros k Hk. apply H2 in Hk. lia. }
    destruct p as [b|t]; auto. destruct (negb (is_empty t)); auto.
    destruct (is_getCompactRanges t); cbn in H; try discriminate.
    destruct (printableMap (S i) l) as [m'| |] eqn:E; cbn in H; try discriminate. injection H as <-.
    apply IH in E as [H1 H2]. cbn. split.
    + constructor; auto. intros K. apply H2 in K. lia.
    + intros k [<-|K]; [lia|]. apply H2 in K. lia.
Qed.
Lemma map_in : forall l i m, printableMap i l = Ok m ->
  forall k bs, In (k, bs) m <-> exists j t, nth_error l j = Some (PSet t) /\ k = i + j
    /\ is_empty t = false /\ is_getCompactRanges t = Ok bs.
Proof.
  induction l as [|p l IH]; intros i m H k bs; cbn in H.
  - injection H as <-. split; [intros [] | intros (j & t & K & _)]. now destruct j.
  - assert (X : printableMap (S i) l = Ok m -> (forall t, p = PSet t -> is_empty t = true) ->
      (In (k, bs) m <-> exists j t, nth_error (p :: l) j = Some (PSet t) /\ k = i + j
        /\ is_empty t = false /\ is_getCompactRanges t = Ok bs)).
    { intros H' He. rewrite (IH _ _ H'). split.
      - intros (j & t & H1 & -> & H2). exists (S j), t. repeat split; try tauto. lia.
      - intros (j & t & H1 & -> & H2 & H3). destruct j as [|j]; cbn in H1.
        + injection H1 as ->. rewrite (He t eq_refl) in H2. discriminate.
        + exists j, t. repeat split; auto. lia. }
    destruct p as [b|t]; [apply X; auto; discriminate|].
    destruct (is_empty t) eqn:Et; cbn in H; [apply X; auto; congruence|]. clear X.
    destruct (is_getCompactRanges t) as [cs| |] eqn:Ec; cbn in H; try discriminate.
    destruct (printableMap (S i) l) as [m'| |] eqn:E; cbn in H; try discriminate. injection H as <-.
    cbn [In]. rewrite (IH _ _ E). split.
    + intros [K|(j & u & H1 & -> & H2)].
      * injection K as <- <-. exists 0, t. repeat split; auto.
      * exists (S j), u. repeat split; try tauto. lia.
    + intros (j & u & H1 & -> & H2 & H3). destruct j as [|j]; cbn in H1.
      * injection H1 as ->. left. f_equal; [lia|congruence].
      * right. exists j, u. repeat split; auto. lia.
Qed.
Lemma map_total : forall l i, (forall t, In (PSet t) l -> exists bs, is_getCompactRanges t = Ok bs) ->
  exists m, printableMap i l = Ok m.
Proof.
  induction l as [|p l IH]; intros i H; cbn; [eauto|].
  assert (X : forall i, exists m, printableMap i l = Ok m) by (intros k; apply IH; intros t Ht; apply H; now right).
  destruct p as [b|t]; auto. destruct (negb (is_empty t)); auto.
  destruct (H t (or_introl eq_refl)) as (bs & ->). cbn. destruct (X (S i)) as (m & ->). cbn. eauto.
Qed.

Lemma printable_in : forall l i x, In x (printableVariables i l) <->
  exists j p, nth_error l j = Some p /\ x = Z.of_nat (i + j)
    /\ match p with PBool b => b = true | PSet t => is_empty t = false end.
Proof.
  induction l as [|p l IH]; intros i x; cbn.
  - split; [intros [] | intros (j & t & K & _)]. now destruct j.
  - assert (X : (exists j q, nth_error l j = Some q /\ x = Z.of_nat (S i + j)
        /\ match q with PBool b => b = true | PSet t => is_empty t = false end) <->
      exists j q, nth_error (p :: l) (S j) = Some q /\ x = Z.of_nat (i + S j)
        /\ match q with PBool b => b = true | PSet t => is_empty t = false end).
    { split; intros (j & q & H1 & H2 & H3); exists j, q; repeat split; auto; lia. }
    assert (Y : match p with PBool b => b = true | PSet t => is_empty t = false end ->
       forall L, L = Z.of_nat i :: printableVariables (S i) l -> (In x L <->
       exists j q, nth_error (p :: l) j = Some q /\ x = Z.of_nat (i + j)
         /\ match q with PBool b => b = true | PSet t => is_empty t = false end)).
    { intros Hp L ->. cbn [In]. rewrite IH, X. split.
      - intros [<-|(j & q & H)]; [exists 0, p | exists (S j), q; auto]. cbn. repeat split; auto; lia.
      - intros (j & q & H1 & H2 & H3). destruct j as [|j]; [left; lia | right; exists j, q; auto]. }
    assert (W : ~ match p with PBool b => b = true | PSet t => is_empty t = false end ->
       (In x (printableVariables (S i) l) <->
       exists j q, nth_error (p :: l) j = Some q /\ x = Z.of_nat (i + j)
         /\ match q with PBool b => b = true | PSet t => is_empty t = false end)).
    { intros Hp. rewrite IH, X. split.
      - intros (j & q & H). exists (S j), q. auto.
      - intros (j & q & H1 & H2 & H3). destruct j as [|j]; [|exists j, q; auto].
        cbn in H1. injection H1 as ->. contradiction. }
    destruct p as [b|t].
    + destruct b; [now apply Y | apply W; discriminate].
    + destruct (is_empty t) eqn:E; cbn [negb]; [apply W; congruence | now apply Y].
Qed.
Lemma isPrintable_true : forall l x, isPrintable l x = true <-> In x (printableVariables 0 l).
Proof.
  intros l x. unfold isPrintable. induction (printableVariables 0 l) as [|y s IH]; cbn; [split; [discriminate|tauto]|].
  destruct (Z.eqb_spec y x); [tauto|]. rewrite IH. split; [tauto|]. intros [?|?]; [contradiction|auto].
Qed.

(** ** A caller that asks for every bound sees the points of the boxes *)
Lemma reported_box : forall (m : list (nat * list mdrange)) i (bs : list mdrange) r (b : mdrange) p, NoDup (map fst m) -> In (i, bs) m ->
  nth_error bs r = Some b -> List.length p = List.length b ->
  (in_reported_box (getVariablePrintableRangeBegin m) (getVariablePrintableRangeEnd m)
     (Z.of_nat i) (Z.of_nat r) p <-> in_box p b).
Proof.
  intros m i bs r b p ND Hm Hb Hl. unfold in_reported_box, in_box.
  assert (V : forall bound d x, nth_error b d = Some x ->
    rangeBoundary bound m (Z.of_nat i) (Z.of_nat r) (Z.of_nat d) = Some (bound x))
    by (intros; eapply boundary_value; eauto).
  unfold getVariablePrintableRangeBegin, getVariablePrintableRangeEnd.
  set (f := fun d => rangeBoundary rbegin m (Z.of_nat i) (Z.of_nat r) (Z.of_nat d)).
  set (g := fun d => rangeBoundary rend m (Z.of_nat i) (Z.of_nat r) (Z.of_nat d)).
  assert (Vf : forall d x, nth_error b d = Some x -> f d = Some (rbegin x)) by (intros; now apply V).
  assert (Vg : forall d x, nth_error b d = Some x -> g d = Some (rend x)) by (intros; now apply V).
  change ((forall d v, nth_error p d = Some v -> exists b0 e, f d = Some b0 /\ g d = Some e /\ (b0 <= v < e)%Z)
    <-> Forall2 in_range p b).
  clearbody f g. clear V Hb Hm ND bs i r m. revert b f g Hl Vf Vg.
  induction p as [|v p IH]; intros [|x b] f g Hl Vf Vg; try discriminate.
  - split; [constructor | intros _ [|d] ? H; discriminate].
  - specialize (IH b (fun d => f (S d)) (fun d => g (S d)) ltac:(cbn in Hl; lia)
      (fun d x H => Vf (S d) x H) (fun d x H => Vg (S d) x H)).
    split.
    + intros H. constructor.
      * destruct (H 0 v eq_refl) as (b0 & e & E1 & E2 & E3).
        rewrite (Vf 0 x eq_refl) in E1. rewrite (Vg 0 x eq_refl) in E2. injection E1 as <-. injection E2 as <-. exact E3.
      * apply IH. intros d w Hw. apply (H (S d) w Hw).
    + intros H. inversion H; subst. intros [|d] w Hw.
      * cbn in Hw. injection Hw as <-. exists (rbegin x), (rend x). repeat split; auto; apply H3.
      * apply (proj2 IH H5 d w Hw).
Qed.

Section Printable.
Variable info : variable -> pinfo.
Variable vs : list variable.
Hypothesis sets : forall v t, In v vs -> info v = PSet t -> exists c, 1 <= v_rank v /\ built c (v_rank v) t.

Lemma public_set : forall i v t, nth_public vs i v -> info v = PSet t ->
  1 <= v_rank v /\ exists c, built c (v_rank v) t.
Proof.
  intros i v t H E. destruct (proj2 (public_in vs v) (ex_intro _ _ H)) as [I1 _].
  destruct (sets v t I1 E) as (c & H1 & H2). eauto.
Qed.
Lemma printable_map : exists m, printableMap 0 (printableIndices info vs) = Ok m.
Proof.
  apply map_total. intros t H. apply In_nth_error in H as (i & H). rewrite infos_entries in H.
  apply entries_inv in H as (v & Hv & E). symmetry in E. destruct (public_set i v t Hv E) as (H1 & c & Hb).
  destruct (compact_holds c _ t H1 Hb) as (l & Hl & _). eauto.
Qed.
Lemma map_boxes : forall m0, printableMap 0 (printableIndices info vs) = Ok m0 ->
  forall i bs, In (i, bs) m0 -> exists v t, nth_public vs i v /\ info v = PSet t /\ is_empty t = false
    /\ is_getCompactRanges t = Ok bs /\ Forall (box_of (v_rank v)) bs /\ bs <> []
    /\ (forall p, List.length p = v_rank v -> (holds t p <-> in_boxes p bs)).
Proof.
  intros m0 H0 i bs H. apply (map_in _ _ _ H0) in H as (j & t & H1 & -> & H2 & H3). cbn.
  rewrite infos_entries in H1. apply entries_inv in H1 as (v & Hv & E). symmetry in E.
  destruct (public_set j v t Hv E) as (Hr & c & Hb).
  destruct (compact_holds c _ t Hr Hb) as (l & Hl & HF & HP & _). rewrite H3 in Hl. injection Hl as <-.
  exists v, t. repeat split; auto; try apply HP; auto.
  destruct (nonempty_holds _ t (built_wset _ _ _ Hb) Hr H2) as (p & Lp & Hp).
  intros ->. apply (HP p Lp) in Hp as (b & [] & _).
Qed.

Lemma printable_flag : forall i v, nth_public vs i v ->
  isPrintable (printableIndices info vs) (Z.of_nat i)
  = match info v with PBool b => b | PSet t => negb (is_empty t) end.
Proof.
  intros i v Hv. pose proof (entries_nth info _ _ _ Hv) as E. rewrite <- infos_entries in E.
  apply Bool.eq_iff_eq_true. rewrite isPrintable_true, printable_in. split.
  - intros (j & q & H1 & H2 & H3). assert (j = i) as -> by (cbn in H2; lia). rewrite E in H1. injection H1 as <-.
    destruct (info v); auto. now rewrite H3.
  - intros H. exists i, (info v). repeat split; auto. destruct (info v); auto. destruct (is_empty t); auto; discriminate.
Qed.
Lemma printable_out : forall x, (x < 0 \/ Z.of_nat (numOfVariables vs) <= x)%Z ->
  isPrintable (printableIndices info vs) x = false.
Proof.
  intros x Hx. destruct (isPrintable _ x) eqn:E; auto. exfalso.
  apply isPrintable_true, printable_in in E as (j & q & H & -> & _). rewrite infos_entries in H.
  assert (j < List.length (entries info vs)) by (apply nth_error_Some; congruence). rewrite entries_length in *. lia.
Qed.

Section Map.
Variable m0 m : list (nat * list mdrange).
Hypothesis built_map : printableMap 0 (printableIndices info vs) = Ok m0.
Hypothesis any_order : Permutation m0 m.
Lemma perm_keys : NoDup (map fst m).
Proof.
  destruct (map_keys _ _ _ built_map) as [H _]. eapply Permutation_NoDup; [|exact H]. now apply Permutation_map.
Qed.
Lemma perm_in : forall i bs, In (i, bs) m <-> In (i, bs) m0.
Proof. intros. split; apply Permutation_in; auto. now symmetry. Qed.
Lemma perm_nonempty : Forall (fun e => snd e <> []) m.
Proof.
  apply Forall_forall. intros [i bs] H. apply perm_in in H.
  destruct (map_boxes _ built_map _ _ H) as (v & t & _ & _ & _ & _ & _ & H' & _). exact H'.
Qed.
Lemma scalar_ranges : forall i v b, nth_public vs i v -> info v = PBool b ->
  getVariableNumOfPrintableRanges m (Z.of_nat i) = 0%Z.
Proof.
  intros i v b Hv E. apply num_none; [exact perm_nonempty|]. intros k Ek K. assert (k = i) as -> by lia.
  apply in_map_iff in K as ([k bs] & <- & K). cbn in *. apply perm_in in K.
  destruct (map_boxes _ built_map _ _ K) as (w & t & Hw & Ew & _).
  rewrite (public_fun _ _ _ _ Hv Hw) in E. congruence.
Qed.
Lemma array_ranges : forall i v t, nth_public vs i v -> info v = PSet t ->
  forall p, List.length p = v_rank v ->
  (holds t p <-> exists r, (0 <= r < getVariableNumOfPrintableRanges m (Z.of_nat i))%Z
     /\ in_reported_box (getVariablePrintableRangeBegin m) (getVariablePrintableRangeEnd m) (Z.of_nat i) r p).
Proof.
  intros i v t Hv E p Lp. destruct (is_empty t) eqn:Et.
  - split; [intros H; exfalso; revert H; now apply empty_holds|].
    rewrite num_none; [intros (r & Hr & _); lia | exact perm_nonempty|]. intros k Ek K. assert (k = i) as -> by lia.
    apply in_map_iff in K as ([k bs] & <- & K). cbn in *. apply perm_in in K.
    destruct (map_boxes _ built_map _ _ K) as (w & u & Hw & Ew & Eu & _).
    rewrite (public_fun _ _ _ _ Hv Hw) in E. congruence.
  - assert (exists bs, is_getCompactRanges t = Ok bs) as (bs & Hbs).
    { destruct (public_set i v t Hv E) as (Hr & c & Hb).
      destruct (compact_holds c _ t Hr Hb) as (l & Hl & _). eauto. }
    assert (K : In (i, bs) m0).
    { apply (map_in _ _ _ built_map). exists i, t. repeat split; auto.
      rewrite infos_entries, (entries_nth info _ _ _ Hv). now rewrite E. }
    destruct (map_boxes _ built_map _ _ K) as (w & u & Hw & Ew & Eu & Eb & HF & NE & HP).
    pose proof (public_fun _ _ _ _ Hv Hw) as Evw. rewrite <- Evw in *. rewrite E in Ew. injection Ew as <-.
    pose proof (proj2 (perm_in i bs) K) as Km.
    rewrite (num_value m i bs perm_keys perm_nonempty Km).
    assert (BL : forall r b, nth_error bs r = Some b -> List.length p = List.length b).
    { intros r b Hb. apply nth_error_In in Hb. rewrite Forall_forall in HF. destruct (HF b Hb) as [_ ->]. auto. }
    rewrite (HP p Lp). split.
    + intros (b & Ib & Hb). apply In_nth_error in Ib as (r & Hr). exists (Z.of_nat r). split.
      * assert (r < List.length bs) by (apply nth_error_Some; congruence). lia.
      * apply (reported_box m i bs r b p perm_keys Km Hr (BL r b Hr)). exact Hb.
    + intros (r & Hr & Hb). destruct (nth_error bs (Z.to_nat r)) as [b|] eqn:Er.
      * exists b. split; [eapply nth_error_In; eauto|].
        apply (reported_box m i bs (Z.to_nat r) b p perm_keys Km Er (BL _ _ Er)).
        replace (Z.of_nat (Z.to_nat r)) with r by lia. exact Hb.
      * apply nth_error_None in Er. lia.
Qed.
End Map.
End Printable.

(** ** Values *)
Lemma switch_map : forall {A B} (f : A -> B) d cs x,
  switch (f d) (map (fun c => (fst c, f (snd c))) cs) x = f (switch d cs x).
Proof. induction cs as [|[c b] cs IH]; intros x; cbn; auto. destruct (c =? x)%Z; auto. Qed.
Lemma value_switch : forall K (zero : K) vs mem x idx,
  getVariableValue zero vs mem x idx = switch (fun _ _ => zero) (enum_from 0 (variableGetters vs)) x mem idx.
Proof.
  intros. unfold getVariableValue.
  apply (switch_map (fun g : (string -> list Z -> K) -> list Z -> K => g mem idx) (fun _ _ => zero)).
Qed.
Lemma value_ok : forall K (zero : K) vs mem i v idx, nth_public vs i v -> List.length idx = List.length (v_shape v) ->
  getVariableValue zero vs mem (Z.of_nat i) idx = mem (v_name v) idx.
Proof.
  intros K zero vs mem i v idx Hv L. rewrite value_switch, switch_enum0, getters_entries.
  rewrite (nth_nth_error _ _ _ _ (entries_nth getter _ _ _ Hv)). unfold getter.
  destruct (v_shape v) as [|s sh] eqn:E.
  - destruct idx; [auto|discriminate].
  - unfold v_rank. rewrite E, <- L, firstn_all. reflexivity.
Qed.
Lemma value_out : forall K (zero : K) vs mem x idx, (x < 0 \/ Z.of_nat (numOfVariables vs) <= x)%Z ->
  getVariableValue zero vs mem x idx = zero.
Proof.
  intros K zero vs mem x idx H. rewrite value_switch, getters_entries, switch_enum_out; auto.
  now rewrite entries_length.
Qed.
