(** Proofs about slices. *)

From Coq Require Import List ZArith Bool Lia.
Import ListNotations.
From Verif Require Import SliceModel SliceSpec.
Local Open Scope Z_scope.

Lemma Some_inj {A} (a b : A) : Some a = Some b -> a = b.
Proof. congruence. Qed.

(** ** From the source *)

Lemma one_based : forall ss ss' i j, slice_of 1 ss i j -> lower_subs ss = Some ss' ->
  slice_of 0 ss' (map (fun x => x - 1) i) (map (fun x => x - 1) j).
Proof.
  intros ss ss' i j H. revert ss'.
  induction H as [i | k ss i j H IH | b e s n ss i j H IH | k ss i j H IH];
    intros ss' E; cbn [lower_subs lower_sub] in E.
  - injection E as <-. constructor.
  - destruct (lower_subs ss) as [xs |]; [| discriminate]. injection E as <-. cbn [map].
    replace (k - 1) with (k + -1) by lia. constructor. apply IH; reflexivity.
  - destruct (lower_subs ss) as [xs |]; [| discriminate]. injection E as <-. cbn [map].
    replace (b + n * s - 1) with ((b + -1) + n * s) by lia.
    replace (1 + n - 1) with (0 + n) by lia. constructor. apply IH; reflexivity.
  - destruct (lower_subs ss) as [xs |]; [| discriminate]. injection E as <-. cbn [map].
    constructor. apply IH; reflexivity.
Qed.

Lemma colon_elements : forall ss i j dims, slice_of 0 ss i j ->
  slice_of 0 (infer_bounds dims ss) i j.
Proof.
  intros ss i j dims H. revert dims.
  induction H as [i | k ss i j H IH | b e s n ss i j H IH | k ss i j H IH];
    intros dims; cbn [infer_bounds].
  - constructor.
  - constructor. apply IH.
  - constructor. apply IH.
  - pose proof (so_rng 0 0 (hd 0 dims + -1) 1 k _ i j (IH (tl dims))) as G.
    replace (0 + k * 1) with k in G by lia. replace (0 + k) with k in G by lia. exact G.
Qed.

Lemma infer_plain : forall ss dims, (forall l, ~ In (Arr l) ss) -> plain (infer_bounds dims ss).
Proof.
  induction ss as [| s ss IH]; intros dims H x Hx; [destruct Hx |].
  cbn [infer_bounds] in Hx. destruct Hx as [<- | Hx].
  - destruct s as [i | b e st | | l]; eauto 6. exfalso. apply (H l). left; reflexivity.
  - apply (IH (tl dims)); [| exact Hx]. intros l Hl. apply (H l). right; exact Hl.
Qed.

(** ** Views *)

Lemma locate_all : forall dims i, length i = length dims ->
  locate (map (fun d => mkP 0 d 1 true) dims) i = i.
Proof.
  induction dims as [| d dims IH]; intros [| k i] L; try discriminate; [reflexivity |].
  cbn [map locate p_kept p_off p_stride hd tl].
  f_equal; [lia |]. apply IH. injection L; auto.
Qed.

Lemma parts_nil : forall dims,
  view_parts dims [] = Some (map (fun d => mkP 0 d 1 true) dims).
Proof. intros [| d dims]; reflexivity. Qed.

Lemma locate_slice : forall ss dims ps i j, view_parts dims ss = Some ps ->
  slice_of 0 ss i j -> length i = length dims -> locate ps j = i.
Proof.
  intros ss dims ps i j E H. revert dims ps E.
  induction H as [i | k ss i j H IH | b e s n ss i j H IH | k ss i j H IH];
    intros dims ps E L.
  - rewrite parts_nil in E. apply Some_inj in E as <-. apply locate_all; exact L.
  - destruct dims as [| d dims]; [discriminate |]. cbn [view_parts] in E.
    destruct (view_parts dims ss) as [qs |] eqn:Eq; [| discriminate]. injection E as <-.
    cbn [locate p_kept p_off]. f_equal. apply (IH dims qs Eq). injection L; auto.
  - destruct dims as [| d dims]; [discriminate |]. cbn [view_parts] in E.
    destruct (view_parts dims ss) as [qs |] eqn:Eq; [| discriminate]. injection E as <-.
    cbn [locate p_kept p_off p_stride hd tl]. rewrite Z.add_0_l. f_equal.
    apply (IH dims qs Eq). injection L; auto.
  - destruct dims as [| d dims]; [discriminate |]. cbn [view_parts] in E. discriminate.
Qed.

Lemma view_reads {V} : forall ss (t v : tensor V) i j, view ss t = Some v ->
  slice_of 0 ss i j -> length i = length (t_dims t) -> t_at v j = t_at t i.
Proof.
  intros ss t v i j E H L. unfold view in E.
  destruct (view_parts (t_dims t) ss) as [ps |] eqn:Ep; [| discriminate]. injection E as <-.
  cbn [t_at]. rewrite (locate_slice _ _ _ _ _ Ep H L). reflexivity.
Qed.

Lemma kept_all : forall dims, kept_sizes (map (fun d => mkP 0 d 1 true) dims) = dims.
Proof.
  unfold kept_sizes. induction dims as [| d dims IH]; [reflexivity |].
  cbn [map filter p_kept p_size]. f_equal. exact IH.
Qed.

Lemma slice_length : forall ss dims ps i j, view_parts dims ss = Some ps ->
  slice_of 0 ss i j -> length i = length dims -> length j = length (kept_sizes ps).
Proof.
  intros ss dims ps i j E H. revert dims ps E.
  induction H as [i | k ss i j H IH | b e s n ss i j H IH | k ss i j H IH];
    intros dims ps E L.
  - rewrite parts_nil in E. apply Some_inj in E as <-. rewrite kept_all; exact L.
  - destruct dims as [| d dims]; [discriminate |]. cbn [view_parts] in E.
    destruct (view_parts dims ss) as [qs |] eqn:Eq; [| discriminate]. injection E as <-.
    unfold kept_sizes. cbn [filter p_kept]. apply (IH dims qs Eq). injection L; auto.
  - destruct dims as [| d dims]; [discriminate |]. cbn [view_parts] in E.
    destruct (view_parts dims ss) as [qs |] eqn:Eq; [| discriminate]. injection E as <-.
    unfold kept_sizes. cbn [filter p_kept map length]. f_equal.
    apply (IH dims qs Eq). injection L; auto.
  - destruct dims as [| d dims]; [discriminate |]. cbn [view_parts] in E. discriminate.
Qed.

Lemma views_read {V} : forall chain (t v : tensor V) i j, views chain t = Some v ->
  chain_of 0 chain i j -> length i = length (t_dims t) ->
  t_at v j = t_at t i /\ length j = length (t_dims v).
Proof.
  induction chain as [| ss chain IH]; intros t v i j E H L; cbn [views] in E.
  - injection E as <-. inversion H; subst. auto.
  - destruct (view ss t) as [w |] eqn:Ew; [| discriminate].
    inversion H as [| ss' chain' i' k j' Hs Hc]; subst.
    assert (Lk : length k = length (t_dims w)).
    { unfold view in Ew. destruct (view_parts (t_dims t) ss) as [ps |] eqn:Ep; [| discriminate].
      injection Ew as <-. cbn [t_dims]. exact (slice_length _ _ _ _ _ Ep Hs L). }
    destruct (IH w v k j E Hc Lk) as (A & B). split; [| exact B].
    rewrite A. exact (view_reads ss t w i k Ew Hs L).
Qed.

(** ** Sizes *)

Lemma range_size_count : forall b e s, (0 < s /\ b <= e) \/ (s < 0 /\ e <= b) ->
  range_count b e s (range_size b e s).
Proof.
  intros b e s H. unfold range_count, range_size.
  assert (Q : 0 <= (e - b) ÷ s).
  { destruct H as [(H1 & H2) | (H1 & H2)].
    - apply Z.quot_pos; lia.
    - rewrite <- Z.quot_opp_opp by lia. apply Z.quot_pos; lia. }
  split; [lia |]. intros k Hk.
  destruct H as [(H1 & H2) | (H1 & H2)].
  - pose proof (Z.quot_div_nonneg (e - b) s ltac:(lia) H1) as Eq. rewrite Eq.
    pose proof (Z.mul_div_le (e - b) s H1). pose proof (Z.mul_succ_div_gt (e - b) s H1).
    split; [intros Hl; left; split; [exact H1 | nia] |].
    intros [(_ & Hl) | (Hl & _)]; [| lia]. nia.
  - rewrite <- Z.quot_opp_opp by lia.
    pose proof (Z.quot_div_nonneg (- (e - b)) (- s) ltac:(lia) ltac:(lia)) as Eq. rewrite Eq.
    pose proof (Z.mul_div_le (- (e - b)) (- s) ltac:(lia)).
    pose proof (Z.mul_succ_div_gt (- (e - b)) (- s) ltac:(lia)).
    split; [intros Hl; right; split; [exact H1 | nia] |].
    intros [(Hl & _) | (_ & Hl)]; [lia |]. nia.
Qed.

Lemma range_count_unique : forall b e s n m,
  range_count b e s n -> range_count b e s m -> n = m.
Proof.
  intros b e s n m (Hn & A) (Hm & B).
  destruct (Z.lt_trichotomy n m) as [L | [E | L]]; [exfalso | exact E | exfalso].
  - apply (B n Hn) in L as G. apply A in G; lia.
  - apply (A m Hm) in L as G. apply B in G; lia.
Qed.

Lemma view_dims : forall ss dims r, slice_dims dims ss r -> no_empty ss ->
  (forall l, ~ In (Arr l) ss) ->
  exists ps, view_parts dims (infer_bounds dims ss) = Some ps /\ kept_sizes ps = r.
Proof.
  intros ss dims r H. induction H as [dims | d dims k ss r H IH | d dims b e s n ss r Hc H IH
    | d dims ss r H IH]; intros Hn Ha; cbn [infer_bounds].
  - rewrite parts_nil. eexists; (split; [reflexivity | apply kept_all]).
  - cbn [view_parts tl]. destruct IH as (ps & E & K).
    { intros b e s Hi. apply Hn. right; exact Hi. }
    { intros l Hi. apply (Ha l). right; exact Hi. }
    rewrite E. eexists. split; [reflexivity |]. exact K.
  - cbn [view_parts tl]. destruct IH as (ps & E & K).
    { intros b' e' s' Hi. apply Hn. right; exact Hi. }
    { intros l Hi. apply (Ha l). right; exact Hi. }
    rewrite E. eexists. split; [reflexivity |].
    unfold kept_sizes in *. cbn [filter p_kept map p_size]. f_equal; [| exact K].
    apply (range_count_unique b e s); [| exact Hc].
    apply range_size_count. apply Hn. left; reflexivity.
  - cbn [view_parts tl hd]. destruct IH as (ps & E & K).
    { intros b' e' s' Hi. apply Hn. right; exact Hi. }
    { intros l Hi. apply (Ha l). right; exact Hi. }
    rewrite E. eexists. split; [reflexivity |].
    unfold kept_sizes in *. cbn [filter p_kept map p_size]. f_equal; [| exact K].
    unfold range_size. rewrite Z.quot_1_r. lia.
Qed.

(** ** Folding the views of an element *)

Lemma indices_at : forall i, indices (map At i) = Some i.
Proof.
  induction i as [| k i IH]; [reflexivity |]. cbn [map indices is_index]. rewrite IH. reflexivity.
Qed.

Lemma concat_at : forall ss i j, plain ss -> slice_of 0 ss i j ->
  concat_loop ss j = Some (map At i).
Proof.
  intros ss i j Hp H.
  induction H as [i | k ss i j H IH | b e s n ss i j H IH | k ss i j H IH];
    cbn [concat_loop].
  - reflexivity.
  - rewrite IH; [reflexivity |]. intros x Hx. apply Hp. right; exact Hx.
  - rewrite IH; [| intros x Hx; apply Hp; right; exact Hx]. cbn [option_map map].
    do 3 f_equal. lia.
  - exfalso. destruct (Hp All (or_introl eq_refl)) as [(x & E) | (x & y & z & E)]; discriminate.
Qed.

Lemma plain_no_array : forall ss, plain ss -> existsb is_array ss = false.
Proof.
  induction ss as [| s ss IH]; intros H; [reflexivity |]. cbn [existsb].
  rewrite IH by (intros x Hx; apply H; right; exact Hx).
  destruct (H s (or_introl eq_refl)) as [(x & ->) | (x & y & z & ->)]; reflexivity.
Qed.

Lemma slicing_ne : forall rank ss, ss <> [] -> is_slicing rank ss = true.
Proof.
  intros rank ss H. unfold is_slicing. apply negb_true_iff, Nat.eqb_neq.
  destruct ss; [congruence |]. cbn [length]. lia.
Qed.

Lemma chain_snoc : forall chain ss i j, chain_of 0 (chain ++ [ss]) i j ->
  exists k, chain_of 0 chain i k /\ slice_of 0 ss k j.
Proof.
  induction chain as [| s chain IH]; intros ss i j H; cbn [app] in H.
  - inversion H as [| s' c' i' k j' Hs Hc]; subst. inversion Hc; subst.
    exists i. split; [constructor | exact Hs].
  - inversion H as [| s' c' i' k j' Hs Hc]; subst.
    destruct (IH ss k j Hc) as (m & A & B). exists m. split; [| exact B].
    econstructor; eassumption.
Qed.

Lemma fold_ok : forall chain i j,
  Forall (fun c => snd c <> [] /\ plain (snd c)) chain ->
  chain_of 0 (map snd chain) i j -> fold_extract (rev chain) j = ([], i).
Proof.
  intros chain. induction chain as [| (rank, ss) chain IH] using rev_ind; intros i j HF H.
  - inversion H; subst. reflexivity.
  - rewrite rev_app_distr. cbn [rev app fold_extract].
    rewrite map_app in H. cbn [map snd] in H.
    apply chain_snoc in H as (k & Hc & Hs).
    apply Forall_app in HF as (HF & Hl). inversion Hl as [| x l (Hne & Hp) _]; subst.
    cbn [snd] in Hne, Hp.
    rewrite (slicing_ne rank ss Hne). unfold concatSubscripts.
    rewrite (plain_no_array ss Hp), (concat_at ss k j Hp Hs), indices_at.
    apply IH; assumption.
Qed.

(** ** Merging views *)

Lemma parts_app : forall ss rest dims, only_indices ss -> (length ss <= length dims)%nat ->
  view_parts dims (ss ++ rest)
  = option_map (fun ps => map (fun s => match s with At i => mkP i 1 1 false | _ => mkP 0 0 0 false end) ss ++ ps)
      (view_parts (skipn (length ss) dims) rest).
Proof.
  induction ss as [| s ss IH]; intros rest dims Ho L.
  - cbn [app length skipn map]. destruct (view_parts dims rest); reflexivity.
  - destruct dims as [| d dims]; [cbn in L; lia |].
    cbn [app view_parts length skipn map]. destruct (Ho s (or_introl eq_refl)) as (k & ->).
    rewrite IH; [| intros x Hx; apply Ho; right; exact Hx | cbn in L; lia].
    destruct (view_parts (skipn (length ss) dims) rest); reflexivity.
Qed.

Lemma locate_indices : forall ss ps j, only_indices ss ->
  locate (map (fun s => match s with At i => mkP i 1 1 false | _ => mkP 0 0 0 false end) ss ++ ps) j
  = map (fun s => match s with At i => i | _ => 0 end) ss ++ locate ps j.
Proof.
  induction ss as [| s ss IH]; intros ps j Ho; [reflexivity |].
  destruct (Ho s (or_introl eq_refl)) as (k & ->). cbn [map app locate p_kept p_off].
  f_equal. apply IH. intros x Hx. apply Ho. right; exact Hx.
Qed.

Lemma kept_indices : forall ss ps, only_indices ss ->
  kept_sizes (map (fun s => match s with At i => mkP i 1 1 false | _ => mkP 0 0 0 false end) ss ++ ps)
  = kept_sizes ps.
Proof.
  induction ss as [| s ss IH]; intros ps Ho; [reflexivity |].
  destruct (Ho s (or_introl eq_refl)) as (k & ->). unfold kept_sizes in *.
  cbn [map app filter p_kept]. apply IH. intros x Hx. apply Ho. right; exact Hx.
Qed.

Lemma parts_length : forall ss dims ps, view_parts dims ss = Some ps ->
  (length ss <= length dims)%nat.
Proof.
  induction ss as [| s ss IH]; intros dims ps E; cbn [length]; [lia |].
  destruct dims as [| d dims]; [discriminate |]. cbn [view_parts] in E.
  destruct (view_parts dims ss) as [qs |] eqn:Eq.
  - apply IH in Eq. cbn [length]. lia.
  - destruct s; discriminate.
Qed.

Lemma locate_prefix : forall dims rest ps, view_parts dims rest = Some ps ->
  forall j, length (locate ps j) = length dims.
Proof.
  intros dims rest. revert dims. induction rest as [| s rest IH]; intros dims ps E j.
  - rewrite parts_nil in E. apply Some_inj in E as <-. revert j.
    induction dims as [| d dims IHl]; intros j; [reflexivity |].
    cbn [map locate p_kept length]. f_equal. apply IHl.
  - destruct dims as [| d dims]; [discriminate |]. cbn [view_parts] in E.
    destruct (view_parts dims rest) as [qs |] eqn:Eq; [| destruct s; discriminate].
    destruct s; try discriminate; injection E as <-; cbn [locate p_kept length];
      f_equal; apply (IH dims qs Eq).
Qed.

(** A view with only indices and a view of it. *)
Lemma merge_two {V} : forall ss rest (t v w : tensor V), only_indices ss ->
  view ss t = Some v -> view rest v = Some w ->
  exists u, view (ss ++ rest) t = Some u /\ t_dims u = t_dims w /\
    forall j, t_at u j = t_at w j.
Proof.
  intros ss rest t v w Ho Ev Ew. unfold view in *.
  destruct (view_parts (t_dims t) ss) as [ps |] eqn:Ep; [| discriminate]. injection Ev as <-.
  cbn [t_dims t_at] in Ew. pose proof (parts_length _ _ _ Ep) as L.
  pose proof (parts_app ss [] (t_dims t) Ho L) as Ea. rewrite app_nil_r, Ep in Ea.
  assert (Er : view_parts (skipn (length ss) (t_dims t)) []
               = Some (map (fun d => mkP 0 d 1 true) (skipn (length ss) (t_dims t)))).
  { destruct (skipn (length ss) (t_dims t)); reflexivity. }
  rewrite Er in Ea. cbn [option_map] in Ea. injection Ea as Ea.
  rewrite Ea, kept_indices, kept_all in Ew by exact Ho.
  rewrite (parts_app ss rest (t_dims t) Ho L).
  destruct (view_parts (skipn (length ss) (t_dims t)) rest) as [qs |] eqn:Eq; [| discriminate].
  injection Ew as <-. cbn [option_map]. eexists. split; [reflexivity |]. cbn [t_dims t_at]. split.
  - apply kept_indices; exact Ho.
  - intros j. rewrite !locate_indices by exact Ho.
    rewrite locate_all; [reflexivity |]. exact (locate_prefix _ _ _ Eq j).
Qed.

Lemma view_ext {V} : forall ss (t t' w : tensor V), t_dims t = t_dims t' ->
  (forall i, t_at t i = t_at t' i) -> view ss t = Some w ->
  exists w', view ss t' = Some w' /\ t_dims w' = t_dims w /\ forall j, t_at w' j = t_at w j.
Proof.
  intros ss t t' w Hd Ha E. unfold view in *. rewrite <- Hd.
  destruct (view_parts (t_dims t) ss) as [ps |]; [| discriminate]. injection E as <-.
  eexists. split; [reflexivity |]. cbn [t_dims t_at]. split; [reflexivity |].
  intros j. symmetry. apply Ha.
Qed.

Lemma merge_ok {V} : forall inner last (t w : tensor V), Forall only_indices inner ->
  views (inner ++ [last]) t = Some w ->
  exists u, view (merge_views (inner ++ [last])) t = Some u /\ t_dims u = t_dims w /\
    forall j, t_at u j = t_at w j.
Proof.
  induction inner as [| ss inner IH]; intros last t w HF E.
  - cbn [app views] in E. unfold merge_views. cbn [app concat]. rewrite app_nil_r.
    destruct (view last t) as [v |] eqn:Ev; [| discriminate]. injection E as <-.
    exists v. auto.
  - inversion HF as [| x l Ho HF']; subst. cbn [app views] in E.
    destruct (view ss t) as [v |] eqn:Ev; [| discriminate].
    destruct (IH last v w HF' E) as (u & Eu & Du & Au).
    unfold merge_views in *. cbn [app concat].
    destruct (merge_two ss _ t v u Ho Ev Eu) as (u' & E' & D' & A').
    exists u'. split; [exact E' |]. split; [congruence |]. intros j. rewrite A'. apply Au.
Qed.

Lemma indices_range : forall ss b e s, In (Rng b e s) ss -> indices ss = None.
Proof.
  induction ss as [| x ss IH]; intros b e s H; [destruct H |]. cbn [indices].
  destruct H as [-> | H]; [reflexivity |]. rewrite (IH b e s H).
  destruct (is_index x); reflexivity.
Qed.

Lemma merge_extract_fails {V} : forall chain idx (t : tensor V) ss b e s,
  In ss chain -> In (Rng b e s) ss -> extract (merge_extract chain idx) t = None.
Proof.
  intros chain idx t ss b e s Hc Hr. unfold extract.
  destruct (_ =? _)%nat; [| reflexivity].
  rewrite (indices_range (merge_extract chain idx) b e s); [reflexivity |].
  unfold merge_extract. apply in_or_app. left. apply in_concat. eauto.
Qed.

(** ** Writing a slice *)

Lemma insert_rest : forall dims value ps i, insert_parts dims [] value = Some ps ->
  length i = length dims -> locate ps i = i.
Proof.
  induction dims as [| d dims IH]; intros value ps i E L; cbn [insert_parts] in E.
  - injection E as <-. destruct i; [reflexivity | discriminate].
  - destruct i as [| k i]; [discriminate |]. destruct value as [| v value]; [discriminate |].
    destruct (insert_parts dims [] value) as [qs |] eqn:Eq; [| discriminate]. injection E as <-.
    cbn [locate p_kept p_off p_stride hd tl]. f_equal; [lia |].
    apply (IH value qs i Eq). injection L; auto.
Qed.

Lemma insert_slice : forall ss dims value ps i j,
  insert_parts dims ss value = Some ps -> slice_of 0 ss i j -> length i = length dims ->
  (forall b e s, In (Rng b e s) ss -> 0 <= s) -> locate ps j = i.
Proof.
  intros ss dims value ps i j E H. revert dims value ps E.
  induction H as [i | k ss i j H IH | b e s n ss i j H IH | k ss i j H IH];
    intros dims value ps E L Hs.
  - exact (insert_rest dims value ps i E L).
  - destruct dims as [| d dims]; [discriminate |]. cbn [insert_parts] in E.
    destruct (insert_parts dims ss value) as [qs |] eqn:Eq; [| discriminate]. injection E as <-.
    cbn [locate p_kept p_off]. f_equal. apply (IH dims value qs Eq).
    + injection L; auto.
    + intros b e s Hi. apply (Hs b e s). right; exact Hi.
  - destruct dims as [| d dims]; [discriminate |]. cbn [insert_parts] in E.
    destruct value as [| v value]; [discriminate |].
    destruct (insert_parts dims ss value) as [qs |] eqn:Eq; [| discriminate]. injection E as <-.
    cbn [locate p_kept p_off p_stride hd tl].
    replace (0 <=? s) with true
      by (symmetry; apply Z.leb_le; apply (Hs b e s); left; reflexivity).
    rewrite Z.add_0_l. f_equal. apply (IH dims value qs Eq).
    + injection L; auto.
    + intros b' e' s' Hi. apply (Hs b' e' s'). right; exact Hi.
  - destruct dims as [| d dims]; [discriminate |]. cbn [insert_parts] in E. discriminate.
Qed.

(** ** Sizes from the source *)

Lemma lower_dims : forall ss ss' dims r, lower_subs ss = Some ss' ->
  slice_dims dims ss r -> slice_dims dims ss' r.
Proof.
  intros ss ss' dims r E H. revert ss' E.
  induction H as [dims | d dims k ss r H IH | d dims b e s n ss r Hc H IH | d dims ss r H IH];
    intros ss' E; cbn [lower_subs lower_sub] in E.
  - injection E as <-. constructor.
  - destruct (lower_subs ss) as [xs |]; [| discriminate]. injection E as <-.
    constructor. apply IH; reflexivity.
  - destruct (lower_subs ss) as [xs |]; [| discriminate]. injection E as <-.
    constructor; [| apply IH; reflexivity].
    destruct Hc as (Hn & Hc). split; [exact Hn |]. intros k Hk. rewrite (Hc k Hk). lia.
  - destruct (lower_subs ss) as [xs |]; [| discriminate]. injection E as <-.
    constructor. apply IH; reflexivity.
Qed.

Lemma lower_range : forall ss ss' b e s, lower_subs ss = Some ss' -> In (Rng b e s) ss' ->
  In (Rng (b + 1) (e + 1) s) ss.
Proof.
  induction ss as [| x ss IH]; intros ss' b e s E H; cbn [lower_subs] in E.
  - injection E as <-. destruct H.
  - destruct (lower_sub x) as [y |] eqn:Ey; [| discriminate].
    destruct (lower_subs ss) as [xs |]; [| discriminate]. injection E as <-.
    destruct H as [-> | H]; [left | right; apply (IH xs); auto].
    destruct x; cbn [lower_sub] in Ey; try discriminate. injection Ey as <- <- <-.
    f_equal; lia.
Qed.

Lemma lower_array : forall ss ss' l, lower_subs ss = Some ss' -> ~ In (Arr l) ss'.
Proof.
  induction ss as [| x ss IH]; intros ss' l E H; cbn [lower_subs] in E.
  - injection E as <-. destruct H.
  - destruct (lower_sub x) as [y |] eqn:Ey; [| discriminate].
    destruct (lower_subs ss) as [xs |]; [| discriminate]. injection E as <-.
    destruct H as [-> | H]; [| apply (IH xs l); auto].
    destruct x; discriminate.
Qed.
