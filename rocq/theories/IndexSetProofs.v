(** Index sets: additions, searches, removals. *)
From Coq Require Import ZArith List Bool Lia ZifyBool Permutation.
From Verif Require Import RangeModel MDRangeModel Spec RangeProofs MDRangeProofs
  Result RTreeModel IndexSetModel RTreeSplitProofs RTreeQueryProofs RTreeProofs BoxListProofs ListTac.
Import ListNotations.
Local Open Scope nat_scope.

Section IS.
Variable minE maxE : nat.
Hypothesis minE_pos : 1 <= minE.
Hypothesis maxE_min : 2 * minE <= maxE.
Variable rk : nat.
Variable lo : nat.
Variable up : nat -> Prop.
Hypothesis lo_pos : 1 <= lo.
Hypothesis lo_min : lo <= minE.
Hypothesis up_down : forall a b, a <= b -> up b -> up a.
Hypothesis up_max : up maxE.

Local Notation box := (box_of rk).
Definition wf (t : iset) : Prop := rt_ok mdrange box_shape rk lo up t.
Local Notation qok := (qok mdrange box_shape rk).
Local Notation objs := (objs mdrange).

Lemma wf_q : forall t, wf t -> qtree mdrange box_shape rk t.
Proof. intros t H. eapply rt_ok_qtree; exact H. Qed.

Lemma wf_boxes : forall t, wf t -> Forall box (is_ranges t).
Proof.
  intros t H. apply wf_q in H. unfold qtree, is_ranges in *. destruct (rt_root mdrange t); auto.
  apply Forall_forall. intros x Hx.
  apply (qok_covers mdrange box_shape box_eq rk n H x Hx).
Qed.

Lemma wf_nonempty : forall t r, wf t -> rt_root mdrange t = Some r -> is_ranges t <> [].
Proof.
  intros t r H E. apply wf_q in H. unfold qtree, is_ranges in *. rewrite E in *.
  apply (qok_nonempty mdrange box_shape rk r H).
Qed.

Lemma wf_rank : forall t r, wf t -> rt_root mdrange t = Some r -> is_rank t = rk.
Proof.
  intros t r (H1 & H2 & H3) E. apply H2. destruct (rt_initialized mdrange t) eqn:Ei; auto.
  rewrite H3 in E; auto. discriminate.
Qed.

Lemma tree_insert_ok : forall t b t', wf t -> box b ->
  is_tree_insert minE maxE t b = Ok t' ->
  wf t' /\ same rk (is_ranges t ++ [b]) (is_ranges t').
Proof.
  intros t b t' Ht Hb H. unfold is_tree_insert in H.
  eapply (rt_insert_ok mdrange box_shape box_eq is_hook minE maxE rk lo up minE_pos maxE_min
            lo_pos lo_min up_down up_max (same rk)) in H;
    eauto using same_perm, same_trans, same_app, hook_same, hook_boxes, hook_length.
Qed.

(** overlaps(box) *)
Lemma overlapsLoop_spec : forall fuel b st, box b -> Forall qok st ->
  scount mdrange st <= fuel ->
  exists r, overlapsLoop fuel b st = Ok r
    /\ (r = true <-> exists x, In x (flat_map objs st) /\ mdrange_overlaps x b = true).
Proof.
  induction fuel as [|f IH]; intros b [|n st] Hb H Hc; cbn [overlapsLoop].
  - exists false; split; auto; split; [discriminate|]. intros (x & [] & _).
  - cbn in Hc. rewrite nodeCount_eq in Hc. lia.
  - exists false; split; auto; split; [discriminate|]. intros (x & [] & _).
  - pose proof (Forall_inv H) as Hn.
    destruct (existsb _ (nobjects mdrange n)) eqn:E.
    + exists true. split; auto. split; auto. intros _.
      apply existsb_exists in E as (x & Hx & E). exists x. split; auto.
      apply (search_step mdrange box_shape box_eq rk b n st x); auto.
    + destruct (IH b (kids mdrange b n ++ st)) as (r & Hr & Hs); auto.
      { apply (kids_qok mdrange box_shape rk); auto. }
      { pose proof (kids_count mdrange b n st). lia. }
      exists r. split; auto. rewrite Hs. split; intros (x & Hx & H1); exists x; split; auto.
      * apply (search_step mdrange box_shape box_eq rk b n st x); auto.
      * apply (search_step mdrange box_shape box_eq rk b n st x) in Hx as [Hx|Hx]; auto. exfalso.
        assert (existsb (fun x0 => mdrange_overlaps x0 b) (nobjects mdrange n) = true).
        { apply existsb_exists. exists x. auto. }
        congruence.
Qed.

Lemma root_overlaps : forall r b x, qok r -> box b -> In x (objs r) ->
  mdrange_overlaps x b = true -> mdrange_overlaps (nbd mdrange r) b = true.
Proof.
  intros r b x Hr Hb Hx Ho. destruct (qok_covers mdrange box_shape box_eq rk r Hr x Hx) as [B W].
  eapply within_overlaps with (a := x); eauto using qok_bd.
Qed.

Lemma overlaps_spec : forall t b, wf t -> box b ->
  exists r, is_overlaps_box t b = Ok r
    /\ (r = true <-> exists x, In x (is_ranges t) /\ mdrange_overlaps x b = true).
Proof.
  intros t b H Hb. apply wf_q in H. unfold is_overlaps_box, is_ranges, qtree in *.
  destruct (rt_root mdrange t) as [r|].
  2: { exists false. split; auto. split; [discriminate|]. intros (x & [] & _). }
  destruct (mdrange_overlaps (nbd mdrange r) b) eqn:E.
  - destruct (overlapsLoop_spec (nodeCount mdrange r) b [r]) as (v & Hv & Hs); auto.
    { cbn; lia. }
    exists v. split; auto. rewrite Hs. cbn. rewrite app_nil_r. tauto.
  - exists false. rewrite nodeCount_eq. split; auto. split; [discriminate|].
    intros (x & Hx & H1). rewrite <- E. eapply root_overlaps; eauto.
Qed.

Lemma overlaps_points : forall t b, wf t -> box b ->
  exists r, is_overlaps_box t b = Ok r
    /\ (r = true <-> exists p, in_box p b /\ in_boxes p (is_ranges t)).
Proof.
  intros t b H Hb. destruct (overlaps_spec t b H Hb) as (r & E & S). exists r. split; auto.
  rewrite S. pose proof (wf_boxes t H) as F. rewrite Forall_forall in F. split.
  - intros (x & Hx & Ho). apply (overlaps_box rk) in Ho as (p & A & B); auto.
    exists p. split; auto. exists x; auto.
  - intros (p & A & x & Hx & B). exists x. split; auto. apply (overlaps_box rk); eauto.
Qed.

(** Peeling the stored ranges off a box. *)
Definition hits (t : iset) (b : mdrange) : bool :=
  existsb (fun x => mdrange_overlaps x b) (is_ranges t).

Lemma overlaps_hits : forall t b, wf t -> box b -> is_overlaps_box t b = Ok (hits t b).
Proof.
  intros t b H Hb. destruct (overlaps_spec t b H Hb) as (r & E & S). rewrite E. f_equal.
  unfold hits. destruct r; symmetry.
  - apply existsb_exists. apply S; auto.
  - destruct (existsb _ _) eqn:X; auto. apply existsb_exists in X. apply S in X. discriminate.
Qed.

Lemma peel_pieces_spec : forall t r, wf t -> forall pieces, Forall box pieces ->
  peel_pieces t r pieces = Ok (filter (hits t) pieces, filter (fun b => negb (hits t b)) pieces).
Proof.
  intros t r Ht pieces H. unfold peel_pieces.
  assert (G : forall a b, fold_res
    (fun acc diff =>
       o <- is_overlaps_box t diff ;;
       Ok (if o : bool then (fst acc ++ [diff], snd acc) else (fst acc, snd acc ++ [diff])))
    pieces (a, b) = Ok (a ++ filter (hits t) pieces, b ++ filter (fun b => negb (hits t b)) pieces)).
  { induction H as [|x l Hx Hl IH]; intros a b; cbn [fold_res filter].
    - rewrite !app_nil_r. reflexivity.
    - rewrite (overlaps_hits t x Ht Hx). cbn [bind]. destruct (hits t x); cbn [fst snd negb];
        rewrite IH, <- app_assoc; reflexivity. }
  apply G.
Qed.

Lemma hits_false : forall t b, wf t -> box b -> hits t b = false ->
  forall p, in_box p b -> ~ in_boxes p (is_ranges t).
Proof.
  intros t b Ht Hb H p Hp (x & Hx & Px).
  assert (hits t b = true); [|congruence].
  apply existsb_exists. exists x. split; auto. apply (overlaps_box rk); eauto.
  pose proof (wf_boxes t Ht) as F. rewrite Forall_forall in F. auto.
Qed.

Lemma in_boxes_partition : forall f p l,
  in_boxes p l <-> in_boxes p (filter f l) \/ in_boxes p (filter (fun b => negb (f b)) l).
Proof.
  intros f p l. induction l as [|x l IH]; cbn.
  - split; [intros H; destruct (in_boxes_nil _ H)|tauto].
  - destruct (f x); cbn; rewrite !in_boxes_cons, IH; tauto.
Qed.
Lemma partition_perm : forall A (f : A -> bool) l,
  Permutation l (filter f l ++ filter (fun b => negb (f b)) l).
Proof.
  intros A f l. induction l as [|x l IH]; cbn; auto. destruct (f x); cbn; [constructor; auto|].
  rewrite IH at 1. apply Permutation_middle.
Qed.

Lemma flat_subtract_spec : forall r, box r -> forall l, Forall box l ->
  Forall box (flat_map (fun c => mdrange_subtract c r) l)
  /\ (forall p, in_boxes p (flat_map (fun c => mdrange_subtract c r) l)
        <-> in_boxes p l /\ ~ in_box p r)
  /\ (disj l -> disj (flat_map (fun c => mdrange_subtract c r) l)).
Proof.
  intros r Hr l H. induction H as [|x l Hx Hl IH]; cbn.
  - split; auto. split; [|auto]. intros p. pose proof (in_boxes_nil p). tauto.
  - destruct IH as (A & B & C). split; [|split].
    + apply Forall_app; split; auto. eapply subtract_boxes; eauto.
    + intros p. rewrite in_boxes_app, in_boxes_cons, B, (subtract_in rk); auto. tauto.
    + intros D. apply FOP_inv in D as [D1 D2]. apply disj_app. split; [eapply subtract_disj; eauto|].
      split; auto. intros p P1 P2. apply (subtract_in rk) in P1; auto. apply B in P2.
      destruct P2 as [(y & Hy & Py) _]. rewrite Forall_forall in D1.
      apply (D1 y Hy p). tauto.
Qed.

Lemma Forall_filter : forall A (P : A -> Prop) f l, Forall P l -> Forall P (filter f l).
Proof. intros A P f l H. induction H; cbn; auto. destruct (f x); auto. Qed.

Lemma peel_spec : forall t, wf t -> forall ranges donep current final,
  is_ranges t = donep ++ ranges -> (ranges <> [] \/ current = []) ->
  Forall box current -> (forall p, in_boxes p current -> in_boxes p donep -> False) ->
  Forall box final ->
  (forall p, in_boxes p final -> in_boxes p (is_ranges t) -> False) ->
  exists out, peel t ranges current final = Ok out /\ Forall box out
    /\ (forall p, in_boxes p out <->
          in_boxes p final \/ (in_boxes p current /\ ~ in_boxes p (is_ranges t)))
    /\ (disj (current ++ final) -> disj out).
Proof.
  intros t Ht. pose proof (wf_boxes t Ht) as Hrs.
  induction ranges as [|r ranges IH]; intros donep current final E Hne Hc Hd Hf Hfd; cbn [peel].
  - destruct Hne as [Hne| ->]; [congruence|]. exists final. split; auto. split; auto. split; auto.
    intros p. pose proof (in_boxes_nil p). tauto.
  - assert (Hr : box r).
    { rewrite Forall_forall in Hrs. apply Hrs. rewrite E. apply in_or_app. right; left; auto. }
    destruct (flat_subtract_spec r Hr current Hc) as (A & B & C).
    set (pieces := flat_map (fun c => mdrange_subtract c r) current) in *. clearbody pieces.
    rewrite (peel_pieces_spec t r Ht _ A). cbn [bind].
    destruct (IH (donep ++ [r]) (filter (hits t) pieces)
                (final ++ filter (fun b => negb (hits t b)) pieces)) as (out & O1 & O2 & O3 & O4).
    + rewrite E, <- app_assoc. reflexivity.
    + destruct ranges as [|r2 ranges]; [right|left; discriminate].
      assert (G : forall x, In x pieces -> hits t x = false).
      { intros x Hx. destruct (hits t x) eqn:Eh; auto. exfalso.
        apply existsb_exists in Eh as (y & Hy & Ho).
        assert (By : box y) by (rewrite Forall_forall in Hrs; auto).
        assert (Bx : box x) by (rewrite Forall_forall in A; auto).
        apply (overlaps_box rk) in Ho as (p & Py & Px); auto.
        assert (Pp : in_boxes p pieces) by (exists x; auto).
        apply B in Pp as [Pc Nr]. rewrite E in Hy. apply in_app_or in Hy as [Hy|[<-|[]]]; auto.
        apply (Hd p Pc). exists y; auto. }
      clear - G. induction pieces as [|x l IH]; cbn; auto. rewrite (G x) by (left; auto).
      apply IH. intros; apply G; right; auto.
    + apply Forall_filter; auto.
    + intros p P1 P2.
      assert (P1' : in_boxes p pieces) by (apply (in_boxes_partition (hits t)); auto).
      apply B in P1' as [Pc Nr]. apply in_boxes_app in P2 as [P2|P2]; [eauto|].
      apply in_boxes_single in P2. auto.
    + apply Forall_app; split; auto. apply Forall_filter; auto.
    + intros p P1 P2. apply in_boxes_app in P1 as [P1|P1]; [eauto|].
      destruct P1 as (x & Hx & Px). apply filter_In in Hx as [Hx Hh].
      rewrite Forall_forall in A. eapply (hits_false t x); eauto.
      destruct (hits t x); auto; discriminate.
    + exists out. split; auto. split; auto. split.
      * intros p. rewrite O3, in_boxes_app.
        assert (Hsplit : in_boxes p pieces /\ ~ in_boxes p (is_ranges t) <->
                 in_boxes p current /\ ~ in_boxes p (is_ranges t)).
        { rewrite B. split; [tauto|]. intros [P1 P2]. split; auto. split; auto.
          intros Pr. apply P2. exists r. split; auto. rewrite E. apply in_or_app. right; left; auto. }
        rewrite <- Hsplit, (in_boxes_partition (hits t) p pieces).
        assert (N : in_boxes p (filter (fun b => negb (hits t b)) pieces) ->
                    ~ in_boxes p (is_ranges t)).
        { intros (x & Hx & Px). apply filter_In in Hx as [Hx Hh]. rewrite Forall_forall in A.
          eapply (hits_false t x); eauto. destruct (hits t x); auto; discriminate. }
        tauto.
      * intros D. apply O4. apply disj_app in D as (D1 & D2 & D3).
        eapply disj_perm with (l := (filter (hits t) pieces ++ filter (fun b => negb (hits t b)) pieces) ++ final).
        { perm_app. }
        apply disj_app. split; [|split; auto].
        -- eapply disj_perm; [apply partition_perm|]. auto.
        -- intros p P1 P2. apply (D3 p); auto.
           assert (in_boxes p pieces); [|apply B; auto].
           apply in_boxes_app in P1. apply (in_boxes_partition (hits t)). tauto.
Qed.

Lemma tree_inserts_ok : forall pieces t t', wf t -> Forall box pieces ->
  fold_res (is_tree_insert minE maxE) pieces t = Ok t' ->
  wf t' /\ same rk (is_ranges t ++ pieces) (is_ranges t').
Proof.
  induction pieces as [|b l IH]; intros t t' Ht Hp H; cbn in H.
  - injection H as <-. split; auto. rewrite app_nil_r. apply same_refl.
  - apply bind_ok in H as (t1 & H1 & H). inversion Hp; subst.
    apply tree_insert_ok in H1 as [A B]; auto. apply IH in H as [C D]; auto.
    split; auto. eapply same_trans; [|exact D].
    replace (is_ranges t ++ b :: l) with ((is_ranges t ++ [b]) ++ l) by (rewrite <- app_assoc; auto).
    apply same_app; auto.
Qed.

Lemma insert_ok : forall t b t', wf t -> box b -> is_insert minE maxE t b = Ok t' ->
  wf t' /\ (forall p, in_boxes p (is_ranges t') <-> in_boxes p (is_ranges t) \/ in_box p b)
  /\ (disj (is_ranges t) -> disj (is_ranges t')).
Proof.
  intros t b t' Ht Hb H. unfold is_insert in H.
  apply bind_ok in H as (u & _ & H). apply bind_ok in H as (pieces & Hp & H).
  assert (P : Forall box pieces
    /\ (forall p, in_boxes p pieces <-> in_box p b /\ ~ in_boxes p (is_ranges t)) /\ disj pieces).
  { unfold is_ranges. destruct (rt_root mdrange t) as [r|] eqn:Er.
    - destruct (peel_spec t Ht (objs r) [] [b] []) as (out & O1 & O2 & O3 & O4); auto.
      + unfold is_ranges. rewrite Er. reflexivity.
      + left. pose proof (wf_nonempty t r Ht Er) as N. unfold is_ranges in N. rewrite Er in N. auto.
      + intros p _ HH. destruct (in_boxes_nil _ HH).
      + intros p HH. destruct (in_boxes_nil _ HH).
      + rewrite O1 in Hp. injection Hp as <-. split; auto. split.
        * intros p. rewrite O3. unfold is_ranges. rewrite Er, in_boxes_single.
          pose proof (in_boxes_nil p). tauto.
        * apply O4. cbn. repeat constructor.
    - injection Hp as <-. split; auto. split; [|repeat constructor].
      intros p. rewrite in_boxes_single. pose proof (in_boxes_nil p). tauto. }
  destruct P as (P1 & P2 & P3).
  apply tree_inserts_ok in H as [A B]; auto.
  destruct B as (B1 & B2 & B3); [apply Forall_app; split; auto using wf_boxes|].
  split; auto. split.
  - intros p. rewrite <- B2, in_boxes_app, P2.
    assert (in_boxes p (is_ranges t) \/ ~ in_boxes p (is_ranges t)); [|tauto].
    generalize (is_ranges t) as l. clear. induction l as [|x l IH].
    + right. apply in_boxes_nil.
    + rewrite in_boxes_cons. destruct (in_box_dec p x); tauto.
  - intros D. apply B3. apply disj_app. split; auto. split; auto.
    intros p Q1 Q2. apply P2 in Q2. tauto.
Qed.

Lemma insert_boxes_ok : forall l t t', wf t -> Forall box l ->
  fold_res (is_insert minE maxE) l t = Ok t' ->
  wf t' /\ (forall p, in_boxes p (is_ranges t') <-> in_boxes p (is_ranges t) \/ in_boxes p l)
  /\ (disj (is_ranges t) -> disj (is_ranges t')).
Proof.
  induction l as [|b l IH]; intros t t' Ht Hl H; cbn in H.
  - injection H as <-. split; auto. split; auto. intros p. pose proof (in_boxes_nil p). tauto.
  - apply bind_ok in H as (t1 & H1 & H). inversion Hl; subst.
    apply insert_ok in H1 as (A & B & C); auto. apply IH in H as (D & E & F); auto.
    split; auto. split; auto. intros p. rewrite E, B, in_boxes_cons. tauto.
Qed.
End IS.
