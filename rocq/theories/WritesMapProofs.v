(** Proofs about the writers map. *)
From Coq Require Import ZArith List Bool Arith Lia.
From Verif Require Import RangeModel MDRangeModel Spec MDRangeProofs BoxSetModel BoxSetProofs WritesMapModel.
Import ListNotations.
Local Open Scope nat_scope.

Lemma find_update : forall A (k k' : nat) (d : A) f m,
  map_find k' (map_update k d f m) =
  if Nat.eqb k' k then Some (f (match map_find k m with Some a => a | None => d end)) else map_find k' m.
Proof.
  induction m as [|[x a] m IH]; cbn.
  - destruct (Nat.eqb_spec k' k); auto.
  - destruct (Nat.eqb_spec k x); cbn.
    + subst. destruct (Nat.eqb_spec k' x); auto.
    + destruct (Nat.eqb_spec k' x); [destruct (Nat.eqb_spec k' k); [congruence|reflexivity]|]. exact IH.
Qed.

Lemma update_keys : forall A (k : nat) (d : A) f m,
  (forall x, In x (map fst (map_update k d f m)) <-> In x (map fst m) \/ x = k)
  /\ (NoDup (map fst m) -> NoDup (map fst (map_update k d f m))).
Proof.
  induction m as [|[x a] m [IH1 IH2]]; cbn.
  - split; [intros; intuition|]. intros _. constructor; [intros []|constructor].
  - destruct (Nat.eqb_spec k x); cbn.
    + subst. split; [intros; intuition|auto].
    + split; [intros; rewrite IH1; intuition|]. intros N. inversion N; subst.
      constructor; [|auto]. intros H. apply IH1 in H. intuition.
Qed.

Lemma find_in : forall A (k : nat) (m : list (nat * A)) a, NoDup (map fst m) ->
  (map_find k m = Some a <-> In (k, a) m).
Proof.
  induction m as [|[x b] m IH]; cbn; intros a N.
  - split; [discriminate|intros []].
  - inversion N; subst. destruct (Nat.eqb_spec k x).
    + subst. split; [intros [= ->]; auto|]. intros [[= ->]|H]; auto.
      exfalso. apply H1. apply in_map_iff. exists (x, a); auto.
    + rewrite IH; auto. split; [auto|]. intros [[= ->]|H]; [congruence|auto].
Qed.

Lemma find_key : forall A (k : nat) (m : list (nat * A)), has_key k m = true <-> In k (map fst m).
Proof.
  unfold has_key. induction m as [|[x b] m IH]; cbn.
  - split; [discriminate|intros []].
  - destruct (Nat.eqb_spec k x); [subst; intuition|]. rewrite IH. intuition.
Qed.

(** The entries of a variable. *)
Definition entries_of (w : wmap) (v : nat) : list wentry :=
  match map_find v (warray w) with Some t => t | None => [] end.

Lemma add_ranges : forall v (e : nat) (s : bset) (m : list (nat * list wentry)),
  let m' := fold_left (fun m b => map_update v [] (fun t => t ++ [(b, e)]) m) s m in
  (forall u, u <> v -> map_find u m' = map_find u m)
  /\ (s <> [] -> map_find v m' =
        Some (match map_find v m with Some t => t | None => [] end ++ map (fun b => (b, e)) s))
  /\ (NoDup (map fst m) -> NoDup (map fst m')).
Proof.
  induction s as [|b s IH]; cbn; intros m; [repeat split; auto; congruence|].
  destruct (IH (map_update v [] (fun t => t ++ [(b, e)]) m)) as (A & B & C).
  repeat split.
  - intros u U. rewrite A, find_update by auto. apply Nat.eqb_neq in U. now rewrite U.
  - intros _. rewrite find_update, Nat.eqb_refl in B. destruct s as [|c s].
    + cbn. rewrite find_update, Nat.eqb_refl. reflexivity.
    + rewrite B by discriminate. rewrite <- app_assoc. reflexivity.
  - intros N. apply C. now apply update_keys.
Qed.

Record winv (h : list (nat * bset * nat)) (w : wmap) : Prop := {
  wi_scalar : NoDup (map fst (wscalar w));
  wi_array : NoDup (map fst (warray w));
  wi_skey : forall v, In v (map fst (wscalar w)) <-> exists e, In (v, [], e) h;
  wi_akey : forall v, In v (map fst (warray w)) <-> exists s e, In (v, s, e) h /\ s <> [];
  wi_sval : forall v e, map_find v (wscalar w) = Some e -> In (v, [], e) h;
  wi_entry : forall v b e, In (b, e) (entries_of w v) <-> exists s, In (v, s, e) h /\ In b s
}.

Lemma empty_inv : winv [] wm_empty.
Proof.
  constructor; cbn.
  - constructor.
  - constructor.
  - intros v. split; [intros []|intros [e []]].
  - intros v. split; [intros []|intros (s & e & [] & _)].
  - discriminate.
  - intros v b e. split; [intros []|intros (s & [] & _)].
Qed.

Lemma add_inv : forall h w v s e, winv h w -> winv (h ++ [(v, s, e)]) (wm_addWrite w v s e).
Proof.
  intros h w v s e [S A SK AK SV EN]. unfold wm_addWrite, bs_empty. destruct s as [|b0 s0].
  - constructor; cbn [wscalar warray].
    + now apply update_keys.
    + assumption.
    + intros x. rewrite (proj1 (update_keys _ _ _ _ _)), SK. split.
      * intros [[y Y]| ->]; [exists y|exists e]; apply in_app_iff; cbn; auto.
      * intros [y Y]. apply in_app_iff in Y as [Y|[[= -> ->]|[]]]; eauto.
    + intros x. rewrite AK. split.
      * intros (s & y & Y & N). exists s, y. rewrite in_app_iff; auto.
      * intros (s & y & Y & N). apply in_app_iff in Y as [Y|[[= -> <- ->]|[]]]; [eauto|congruence].
    + intros x y. rewrite find_update. destruct (Nat.eqb_spec x v); intros F; apply in_app_iff.
      * injection F as ->. subst. cbn; auto.
      * left. auto.
    + intros x b y. unfold entries_of in *. cbn [warray]. rewrite EN. split.
      * intros (s & Y & B). exists s. rewrite in_app_iff; auto.
      * intros (s & Y & B). apply in_app_iff in Y as [Y|[[= -> <- ->]|[]]]; [eauto|destruct B].
  - set (s := b0 :: s0) in *. assert (NE : s <> []) by discriminate. clearbody s.
    destruct (add_ranges v e s (warray w)) as (O & V & D). constructor; cbn [wscalar warray].
    + assumption.
    + auto.
    + intros x. rewrite SK. split.
      * intros [y Y]. exists y. rewrite in_app_iff; auto.
      * intros [y Y]. apply in_app_iff in Y as [Y|[[= -> ? ->]|[]]]; [eauto|congruence].
    + intros x. rewrite <- !find_key in *. unfold has_key in *. destruct (Nat.eq_dec x v) as [->|X].
      * rewrite V by auto. split; [|auto]. intros _. exists s, e. rewrite in_app_iff; cbn; auto.
      * rewrite O by auto. specialize (AK x). rewrite <- find_key in AK. unfold has_key in AK. rewrite AK. split.
        -- intros (t & y & Y & N). exists t, y. rewrite in_app_iff; auto.
        -- intros (t & y & Y & N). apply in_app_iff in Y as [Y|[[= -> <- ->]|[]]]; [eauto|congruence].
    + intros x y F. apply in_app_iff. auto.
    + intros x b y. unfold entries_of in *. cbn [warray]. destruct (Nat.eq_dec x v) as [->|X].
      * rewrite V by auto. rewrite in_app_iff, EN, in_map_iff. split.
        -- intros [(t & Y & B)|(c & [= -> ->] & B)]; [exists t|exists s]; rewrite in_app_iff; cbn; auto.
        -- intros (t & Y & B). apply in_app_iff in Y as [Y|[[= <- <-]|[]]]; [left; eauto|right; eauto].
      * rewrite O by auto. rewrite EN. split.
        -- intros (t & Y & B). exists t. rewrite in_app_iff; auto.
        -- intros (t & Y & B). apply in_app_iff in Y as [Y|[[= -> <- ->]|[]]]; [eauto|congruence].
Qed.

Lemma run_inv : forall h, winv h (wm_run h).
Proof.
  intros h. unfold wm_run.
  enough (G : forall h h0 w, winv h0 w ->
    winv (h0 ++ h) (fold_left (fun w c => wm_addWrite w (fst (fst c)) (snd (fst c)) (snd c)) h w)).
  { exact (G h [] wm_empty empty_inv). }
  clear. induction h as [|[[v s] e] h IH]; intros h0 w I; cbn; [now rewrite app_nil_r|].
  replace (h0 ++ (v, s, e) :: h) with ((h0 ++ [(v, s, e)]) ++ h) by now rewrite <- app_assoc.
  apply IH. now apply add_inv.
Qed.

(** What the accumulation of a list of entries gives. *)
Definition gathers (u : list (nat * bset)) (l : list wentry) : Prop :=
  NoDup (map fst u)
  /\ (forall e, In e (map fst u) <-> exists b, In (b, e) l)
  /\ (forall e s, In (e, s) u -> forall p, in_boxes p s <-> exists b, In (b, e) l /\ in_box p b).

Lemma gather_one : forall u l b e, gathers u l ->
  gathers (map_update e [] (fun s => bs_union s [b]) u) (l ++ [(b, e)]).
Proof.
  unfold gathers, bset. intros u l b e (N & K & P). destruct (update_keys _ e ([] : list mdrange) (fun s => bs_union s [b]) u) as [UK UN].
  repeat split.
  - auto.
  - intros H. apply UK in H as [H| ->].
    + apply K in H as [c H]. exists c. rewrite in_app_iff; auto.
    + exists b. rewrite in_app_iff; cbn; auto.
  - intros [c H]. apply UK. apply in_app_iff in H as [H|[[= <- <-]|[]]]; [left; apply K; eauto|auto].
  - apply find_in in H; [|auto]. rewrite find_update in H. intros I.
    destruct (Nat.eqb_spec e0 e).
    + subst. injection H as <-. apply bs_union_spec in I as [I|(c & [<-|[]] & I)].
      * destruct (map_find e u) as [s|] eqn:F; [|destruct I as (c & [] & _)].
        apply find_in in F; [|auto]. apply (P _ _ F) in I as (c & C & I). exists c. rewrite in_app_iff; auto.
      * exists b. rewrite in_app_iff; cbn; auto.
    + apply find_in in H; [|auto]. apply (P _ _ H) in I as (c & C & I). exists c. rewrite in_app_iff; auto.
  - apply find_in in H; [|auto]. rewrite find_update in H. intros (c & C & I).
    destruct (Nat.eqb_spec e0 e).
    + subst. injection H as <-. apply bs_union_spec. apply in_app_iff in C as [C|[[= <-]|[]]].
      * left. destruct (map_find e u) as [s|] eqn:F.
        -- apply find_in in F; [|auto]. apply (P _ _ F). eauto.
        -- assert (X : In e (map fst u)) by (apply K; eauto). apply find_key in X. unfold has_key in X.
           rewrite F in X. discriminate.
      * right. exists b. split; [now left|auto].
    + apply find_in in H; [|auto]. apply (P _ _ H). apply in_app_iff in C as [C|[[= <- <-]|[]]]; [eauto|congruence].
Qed.

Lemma gather_list : forall t u l, gathers u l ->
  gathers (fold_left (fun u x => map_update (snd x) [] (fun s => bs_union s [fst x]) u) t u) (l ++ t).
Proof.
  induction t as [|[b e] t IH]; intros u l G; cbn; [now rewrite app_nil_r|].
  replace (l ++ (b, e) :: t) with ((l ++ [(b, e)]) ++ t) by now rewrite <- app_assoc.
  apply IH. now apply gather_one.
Qed.

Lemma gather_query : forall t q u l, gathers u l ->
  gathers (fold_left (fun u b =>
          fold_left (fun u x => map_update (snd x) [] (fun s => bs_union s [fst x]) u)
            (overlapping_entries t b) u) q u)
    (l ++ flat_map (overlapping_entries t) q).
Proof.
  induction q as [|b q IH]; intros u l G; cbn; [now rewrite app_nil_r|].
  rewrite app_assoc. apply IH. now apply gather_list.
Qed.

Lemma union_all : forall (t : list wentry) s p,
  in_boxes p (fold_left (fun s x => bs_union s [fst x]) t s) <->
  in_boxes p s \/ exists b e, In (b, e) t /\ in_box p b.
Proof.
  induction t as [|[b e] t IH]; intros s p; cbn.
  - split; [auto|]. intros [H|(b & e & [] & _)]; auto.
  - rewrite IH, bs_union_spec. split.
    + intros [[H|(c & C & H)]|(c & f & C & H)]; [eauto|destruct C as [<-|[]]; eauto 7|eauto 7].
    + intros [H|(c & f & C & H)]; [eauto 7|]. destruct C as [C|C]; [|eauto 7]. injection C as <- <-.
      left; right. exists b. split; [now left|auto].
Qed.

(** The calls about an array variable of rank [rk]. *)
Lemma writes_array : forall h v rk q,
  (forall s e, In (v, s, e) h -> bs_of rk s) -> bs_of rk q -> q <> [] ->
  let r := wm_getWrites (wm_run h) v q in
  NoDup (map fst r)
  /\ (forall e, In e (map fst r) <->
        exists s p, In (v, s, e) h /\ in_boxes p s /\ in_boxes p q)
  /\ (forall e s p, In (e, s) r ->
        (in_boxes p s -> exists s', In (v, s', e) h /\ in_boxes p s')
        /\ (in_boxes p q -> (exists s', In (v, s', e) h /\ in_boxes p s') -> in_boxes p s)).
Proof.
  intros h v rk q HS HQ NE. cbv zeta. pose proof (run_inv h) as I.
  assert (OV : forall b e c s, In (v, s, e) h -> In b s -> In c q ->
    (mdrange_overlaps b c = true <-> exists p, in_box p b /\ in_box p c)).
  { intros b e c s H B C. apply HS in H. unfold bs_of in *. rewrite Forall_forall in H, HQ.
    destruct (H b B) as [[_ X1] X2], (HQ c C) as [[_ Y1] Y2].
    apply mdrange_overlaps_spec; [congruence|auto|auto]. }
  unfold wm_getWrites. destruct q as [|b0 q0] eqn:Eq; [congruence|]. cbn [bs_empty].
  rewrite <- Eq in *. clear Eq NE.
  pose proof (gather_query (entries_of (wm_run h) v) q [] []) as G.
  assert (G0 : gathers [] []).
  { repeat split; try constructor; try (intros []; fail); try (intros [? []]; fail).
    - destruct H.
    - destruct H. }
  specialize (G G0). cbn [app] in G. clear G0.
  set (l := flat_map (overlapping_entries (entries_of (wm_run h) v)) q) in *.
  assert (L : forall b e, In (b, e) l <-> exists s c p, In (v, s, e) h /\ In b s /\ In c q /\ in_box p b /\ in_box p c).
  { intros b e. unfold l, overlapping_entries. rewrite in_flat_map. split.
    - intros (c & C & X). apply filter_In in X as [X1 X2]. apply (wi_entry _ _ I) in X1 as (s & X1 & X3).
      cbn in X2. apply (OV b e c s) in X2 as [p [P1 P2]]; auto. exists s, c, p. auto.
    - intros (s & c & p & X1 & X2 & X3 & P1 & P2). exists c. split; auto. apply filter_In. split.
      + apply (wi_entry _ _ I). eauto.
      + cbn. apply (OV b e c s); auto. eauto. }
  clearbody l. destruct (map_find v (warray (wm_run h))) as [t|] eqn:F.
  2:{ assert (N : forall b e, ~ exists s, In (v, s, e) h /\ In b s).
      { intros b e X. apply (wi_entry _ _ I) in X. unfold entries_of in X. rewrite F in X. destruct X. }
      repeat split; try constructor.
      - intros [].
      - intros (s & p & X & (b & B & _) & _). exfalso. eapply N; eauto.
      - destruct H.
      - destruct H. }
  unfold entries_of in G. rewrite F in G. destruct G as (G1 & G2 & G3). repeat split.
  - exact G1.
  - intros X. apply G2 in X as [b X]. apply L in X as (s & c & p & X1 & X2 & X3 & P1 & P2).
    exists s, p. repeat split; auto; [exists b|exists c]; auto.
  - intros (s & p & X & (b & B & P1) & (c & C & P2)). apply G2. exists b. apply L. exists s, c, p. auto.
  - intros X. apply (G3 _ _ H) in X as (b & X & P). apply L in X as (s' & c & p' & X1 & X2 & _).
    exists s'. split; auto. exists b; auto.
  - intros (c & C & P2) (s' & X & (b & B & P1)). apply (G3 _ _ H). exists b. split; auto.
    apply L. exists s', c, p. auto.
Qed.

Lemma writes_scalar : forall h v,
  let r := wm_getWrites (wm_run h) v [] in
  (r = [] <-> ~ exists e, In (v, [], e) h)
  /\ (forall e, r = [(e, [])] -> In (v, [], e) h)
  /\ length r <= 1.
Proof.
  intros h v. cbv zeta. pose proof (run_inv h) as I. unfold wm_getWrites. cbn [bs_empty].
  destruct (map_find v (wscalar (wm_run h))) as [e|] eqn:F; cbn.
  - apply (wi_sval _ _ I) in F. repeat split; try discriminate; [|intros x [= <-]; auto|lia].
    intros N. exfalso. apply N. eauto.
  - repeat split; try discriminate; [|lia]. intros _ [e E].
    assert (K : In v (map fst (wscalar (wm_run h)))) by (apply (wi_skey _ _ I); eauto).
    apply find_key in K. unfold has_key in K. rewrite F in K. discriminate.
Qed.

Lemma writes_scalar_in : forall h v e, In e (map fst (wm_getWrites (wm_run h) v [])) -> In (v, [], e) h.
Proof.
  intros h v e. pose proof (run_inv h) as I. unfold wm_getWrites. cbn [bs_empty].
  destruct (map_find v (wscalar (wm_run h))) as [x|] eqn:F; cbn; [|intros []].
  intros [->|[]]. now apply (wi_sval _ _ I).
Qed.

Lemma written_spec : forall h v, wm_isWritten (wm_run h) v = true <-> exists s e, In (v, s, e) h.
Proof.
  intros h v. pose proof (run_inv h) as I. unfold wm_isWritten. rewrite orb_true_iff, !find_key.
  rewrite (wi_skey _ _ I), (wi_akey _ _ I). split.
  - intros [[e H]|(s & e & H & _)]; eauto.
  - intros ([|b s] & e & H); [left; eauto|right]. exists (b :: s), e. split; [auto|discriminate].
Qed.

Lemma written_indices_spec : forall h v,
  match wm_getWrittenIndices (wm_run h) v with
  | None => ~ exists s e, In (v, s, e) h
  | Some s => (exists s e, In (v, s, e) h) /\
      forall p, in_boxes p s <-> exists s' e, In (v, s', e) h /\ in_boxes p s'
  end.
Proof.
  intros h v. pose proof (run_inv h) as I. pose proof (written_spec h v) as W. unfold wm_isWritten in W.
  unfold wm_getWrittenIndices. rewrite <- negb_orb.
  destruct (has_key v (wscalar (wm_run h)) || has_key v (warray (wm_run h))) eqn:B; cbn [negb].
  2:{ rewrite <- W. discriminate. }
  assert (X : exists s e, In (v, s, e) h) by (now apply W). clear W.
  assert (EN : forall b e, In (b, e) (entries_of (wm_run h) v) <-> exists s, In (v, s, e) h /\ In b s)
    by apply (wi_entry _ _ I). unfold entries_of in EN.
  destruct (map_find v (warray (wm_run h))) as [t|]; (split; [exact X|]); intros p.
  - rewrite union_all. split.
    + intros [(b & [] & _)|(b & e & H & P)]. apply EN in H as (s & H & H2). exists s, e. split; auto. exists b; auto.
    + intros (s & e & H & (b & H2 & P)). right. exists b, e. split; auto. apply EN. eauto.
  - split; [intros (b & [] & _)|]. intros (s & e & H & (b & H2 & P)).
    exfalso. destruct (proj2 (EN b e)); eauto.
Qed.

Lemma variables_spec : forall h v, In v (wm_getVariables (wm_run h)) <-> exists s e, In (v, s, e) h.
Proof.
  intros h v. pose proof (run_inv h) as I. unfold wm_getVariables. rewrite in_app_iff.
  rewrite (wi_skey _ _ I), (wi_akey _ _ I). split.
  - intros [[e H]|(s & e & H & _)]; eauto.
  - intros ([|b s] & e & H); [left; eauto|right]. exists (b :: s), e. split; [auto|discriminate].
Qed.

Lemma variables_nodup : forall h,
  (forall v e s e', In (v, [], e) h -> In (v, s, e') h -> s = []) -> NoDup (wm_getVariables (wm_run h)).
Proof.
  intros h U. pose proof (run_inv h) as I. unfold wm_getVariables.
  assert (G : forall (a b : list nat), NoDup a -> NoDup b -> (forall x, In x a -> ~ In x b) -> NoDup (a ++ b)).
  { induction a as [|x a IH]; cbn; intros b A B D; auto. inversion A; subst. constructor.
    - rewrite in_app_iff. intros [X|X]; [auto|exact (D x (or_introl eq_refl) X)].
    - apply IH; auto. }
  apply G; [apply I|apply I|]. intros x X Y.
  apply (wi_skey _ _ I) in X as [e X]. apply (wi_akey _ _ I) in Y as (s & e' & Y & N). apply N. eauto.
Qed.
