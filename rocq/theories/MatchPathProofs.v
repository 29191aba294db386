(** The paths that the search accepts, and the application of all of them. *)
From Coq Require Import ZArith List Bool Permutation Lia.
From Verif Require Import RangeModel Result MatchModel MatchSpec MatchSetProofs MatchApplyProofs MatchSearchProofs.
Import ListNotations.
Local Open Scope nat_scope.

Definition img (n : node) (m : mmat) : pset := match n with NV _ => m_vars m | NE _ => m_eqs m end.
Definition covers (nw : list (node * pset)) (n : node) (p : point) : Prop :=
  exists S, In (n, S) nw /\ In p S.
(** Every variable of the graph is a scalar. *)
Definition scalar_vars (g : mgraph) : Prop :=
  forall v p q, In (NV v) (g_nodes g) -> In p (mt_all (g_vx g (NV v))) ->
  In q (mt_all (g_vx g (NV v))) -> p = q.
Definition touch (fl : list mflow) (n : node) (p : point) : Prop :=
  exists T, In (n, T) (trest fl) /\ In p T.
Definition pstart (fl : list mflow) (n : node) (p : point) : Prop :=
  exists x d rest, fl = (n, (x, d)) :: rest /\ In p (img n d).

Lemma touched_in : forall g, valid g -> forall l n T fl, apath g l n T fl ->
  forall m p, touch fl m p -> In m (g_nodes g) /\ In p (mt_all (g_vx g m)).
Proof.
  intros g V. induction 1 as [v T Hn Hne Hu|k e v T d fl He Hsub H1 HT Hp IH|k e v T d fl He Hsub H1 HT Hp IH];
    intros m p [T' [Hin HpT]].
  - destruct Hin.
  - cbn [trest snd] in Hin. rewrite touched_cons in Hin. destruct Hin as [E|Hin].
    + inversion E; subst. apply m_vars_spec in HpT as [i Hi].
      destruct (edge_nodes g (e, i) (v, p) V) as (A & B & C & D); auto. right. split; auto.
    + apply IH. exists T'. auto.
  - cbn [trest fst] in Hin. rewrite touched_cons in Hin. destruct Hin as [E|Hin].
    + inversion E; subst. apply m_eqs_spec in HpT as [i Hi].
      destruct (edge_nodes g (e, p) (v, i) V) as (A & B & C & D); auto. left. split; auto.
    + apply IH. exists T'. auto.
Qed.

(** * The walk back *)

(** One visit, as in [walk_back]. *)
Definition visit (seen : vmap) (n : node) (new : list (node * pset)) (t : pset) : option (list (node * pset)) :=
  let old := match find (fun x => node_eqb (fst x) n) new with Some x => snd x | None => [] end in
  let others := filter (fun x => negb (node_eqb (fst x) n)) new in
  match seen n with
  | Some s => if ps_overlaps t s then None else Some ((n, ps_union old t) :: others)
  | None => Some ((n, t) :: others)
  end.

Lemma walk_back_start : forall seen d n c m flows new,
  walk_back seen d (SStart n c) m flows new =
  match visit (seen d) n new (img n m) with Some new' => Some (flows, new') | None => None end.
Proof. intros. destruct n; reflexivity. Qed.
Lemma walk_back_next : forall seen d p e n c flow m flows new,
  walk_back seen d (SNext p e n c flow) m flows new =
  let m' := match flows with
            | [] => m
            | f :: _ => match n with
                        | NV _ => m_filterVars flow (m_vars (fl_delta f))
                        | NE _ => m_filterEqs flow (m_eqs (fl_delta f))
                        end
            end in
  match visit (seen d) n new (img n m') with
  | Some new' => walk_back seen (S d) p m' ((s_node p, (e, m')) :: flows) new'
  | None => None
  end.
Proof. intros. destruct n; reflexivity. Qed.

Lemma visit_new : forall seen n new t new', visit seen n new t = Some new' ->
  (forall p, In p t -> covers new' n p) /\
  (forall m p, m <> n -> covers new m p -> covers new' m p).
Proof.
  intros seen n new t new' H. unfold visit in H.
  assert (O : forall m p (x : node * pset), m <> n -> covers new m p ->
            covers (x :: filter (fun x => negb (node_eqb (fst x) n)) new) m p).
  { intros m p x Hm [S [H1 H2]]. exists S. split; auto. right. apply filter_In. split; auto.
    cbn. apply negb_true_iff. now apply node_eqb_false. }
  destruct (seen n) as [s|].
  - destruct (ps_overlaps t s); inversion H; subst. split; auto.
    intros p Hp. eexists. split; [now left|]. apply ps_union_spec. auto.
  - inversion H; subst. split; auto. intros p Hp. eexists. split; [now left|auto].
Qed.
Lemma visit_none : forall n new t, visit (fun _ => None) n new t <> None.
Proof. intros. unfold visit. discriminate. Qed.

(** What a walk back gives from the node [n]. *)
Definition found (g : mgraph) (l : nat) (fl : list mflow) : Prop :=
  exists e T, apath g l (NE e) T fl /\ In (NE e) (g_nodes g) /\
              (forall i, In i T -> In i (mt_unmatched (g_vx g (NE e)))).

Lemma walk_tail : forall g, valid g -> forall k s, bwf g k s ->
  forall l m f fl0, fl_delta f = m -> fst f = s_node s ->
  apath g l (s_node s) (img (s_node s) m) (f :: fl0) ->
  (forall p, In p (img (s_node s) m) -> In p (s_cand s)) ->
  forall seen d new fl nw, walk_back seen d s m (f :: fl0) new = Some (fl, nw) ->
  found g (k + l) fl /\
  (scalar_vars g -> (forall v p, touch (f :: fl0) (NV v) p -> covers new (NV v) p) ->
   (forall v p, touch fl (NV v) p -> covers nw (NV v) p)) /\
  (forall n p, pstart fl n p -> covers nw n p).
Proof.
  intros g V. induction 1 as [e He|k p e v sol Hw IH Hn He Hs H1 Hu|k p e v sol Hw IH Hn He Hs H1];
    intros l m f fl0 Hd Hf Hp Hc seen d new fl nw Hb.
  - rewrite walk_back_start in Hb. cbn [s_node s_cand img] in *.
    destruct (visit (seen d) (NE e) new (m_eqs m)) as [new'|] eqn:Ev; [|discriminate]. inversion Hb; subst fl nw.
    apply visit_new in Ev as [Ev1 Ev2]. split; [|split].
    + exists e, (m_eqs m). auto.
    + intros _ Hcov v p Ht. apply Ev2; [discriminate|auto].
    + intros n p (x & d' & rest & E & Hp'). inversion E; subst. cbn in Hf. subst n. cbn in Hp'. now apply Ev1.
  - rewrite walk_back_next in Hb. cbn [s_node s_cand img] in *. cbv zeta in Hb. rewrite Hd in Hb.
    set (m' := m_filterVars sol (m_vars m)) in *.
    assert (Hv : forall j, In j (m_vars m) <-> In j (m_vars m')).
    { intros j. unfold m'. rewrite !m_vars_spec. split.
      - intros Hj. apply m_vars_spec in Hj. pose proof (Hc j Hj) as Hj'. apply m_vars_spec in Hj' as [i Hi].
        exists i. apply m_filterVars_spec. auto.
      - intros [i Hi]. apply m_filterVars_spec in Hi as [_ Hi]. now apply m_vars_spec. }
    assert (Hm' : forall i j, In (i, j) (ents m') -> In (i, j) (ents sol))
      by (intros i j Hij; apply m_filterVars_spec in Hij; tauto).
    destruct (visit (seen d) (NV v) new (m_vars m')) as [new'|] eqn:Ev; [|discriminate].
    rewrite Hn in *.
    destruct (IH (S l) m' (NE e, ((e, v), m')) (f :: fl0) eq_refl eq_refl) with
      (seen := seen) (d := S d) (new := new') (fl := fl) (nw := nw) as [A [B C]]; auto.
    + cbn [img]. apply ap_fwd; auto.
      * intros [i j] Hij. apply (Hs i j). auto.
      * destruct H1 as [X Y]. split; intros; eauto.
      * reflexivity.
      * apply apath_ext with (1 := Hp). exact Hv.
    + cbn [img]. intros i Hi. apply m_eqs_spec in Hi as [j Hj]. apply (Hs i j). auto.
    + replace (S k + l) with (k + S l) by lia. split; auto. split; auto.
      intros SV Hcov. apply B; auto. intros w q [T [Hin Hq]]. cbn [trest snd] in Hin.
      rewrite touched_cons in Hin. apply visit_new in Ev as [Ev1 Ev2]. destruct Hin as [E|Hin].
      * inversion E; subst. now apply Ev1.
      * destruct (mid_eq_dec w v) as [->|Hne].
        -- assert (X : exists j, In j (m_vars m')).
           { pose proof (apath_ne _ _ _ _ _ Hp) as Hx. apply list_ne in Hx as [j Hj].
             exists j. now apply Hv. }
           destruct X as [j Hj].
           assert (q = j); [|subst; now apply Ev1].
           destruct (touched_in g V _ _ _ _ Hp (NV v) q) as [Q1 Q2]; [exists T; auto|].
           apply (SV v); auto. apply m_vars_spec in Hj as [i Hi]. apply Hm' in Hi.
           apply Hs in Hi as [Hi _]. destruct (edge_nodes g (e, i) (v, j) V) as (X1 & X2 & X3 & X4); auto.
           right. split; auto.
        -- apply Ev2; [congruence|]. apply Hcov. exists T. auto.
  - rewrite walk_back_next in Hb. cbn [s_node s_cand img] in *. cbv zeta in Hb. rewrite Hd in Hb.
    set (m' := m_filterEqs sol (m_eqs m)) in *.
    assert (Hv : forall j, In j (m_eqs m) <-> In j (m_eqs m')).
    { intros j. unfold m'. rewrite !m_eqs_spec. split.
      - intros Hj. apply m_eqs_spec in Hj. pose proof (Hc j Hj) as Hj'. apply m_eqs_spec in Hj' as [i Hi].
        exists i. apply m_filterEqs_spec. auto.
      - intros [i Hi]. apply m_filterEqs_spec in Hi as [_ Hi]. now apply m_eqs_spec. }
    assert (Hm' : forall i j, In (i, j) (ents m') -> In (i, j) (ents sol))
      by (intros i j Hij; apply m_filterEqs_spec in Hij; tauto).
    destruct (visit (seen d) (NE e) new (m_eqs m')) as [new'|] eqn:Ev; [|discriminate].
    rewrite Hn in *.
    destruct (IH (S l) m' (NV v, ((e, v), m')) (f :: fl0) eq_refl eq_refl) with
      (seen := seen) (d := S d) (new := new') (fl := fl) (nw := nw) as [A [B C]]; auto.
    + cbn [img]. apply ap_bwd; auto.
      * intros [i j] Hij. apply (Hs i j). auto.
      * destruct H1 as [X Y]. split; intros; eauto.
      * reflexivity.
      * apply apath_ext with (1 := Hp). exact Hv.
    + cbn [img]. intros j Hj. apply m_vars_spec in Hj as [i Hi]. apply (Hs i j). auto.
    + replace (S k + l) with (k + S l) by lia. split; auto. split; auto.
      intros SV Hcov. apply B; auto. intros w q [T [Hin Hq]]. cbn [trest fst] in Hin.
      rewrite touched_cons in Hin. apply visit_new in Ev as [Ev1 Ev2]. destruct Hin as [E|Hin].
      * discriminate.
      * apply Ev2; [discriminate|]. apply Hcov. exists T. auto.
Qed.

Lemma walk_end : forall g, valid g -> forall k s, bend g k s ->
  forall seen fl nw, walk_back seen 0 s (s_flow s) [] [] = Some (fl, nw) ->
  found g (S k) fl /\
  (scalar_vars g -> forall v p, touch fl (NV v) p -> covers nw (NV v) p) /\
  (forall n p, pstart fl n p -> covers nw n p).
Proof.
  intros g V k s Hs seen fl nw Hb. destruct Hs as [k p e v cand flow Hw Hn He Hin H1 Hne Hu].
  rewrite walk_back_next in Hb. cbn [s_flow] in Hb. cbv zeta in Hb.
  destruct (visit (seen 0) (NV v) [] (img (NV v) flow)) as [new'|] eqn:Ev; [|discriminate].
  destruct (walk_tail g V k p Hw 1 flow (s_node p, ((e, v), flow)) [] eq_refl eq_refl) with
    (seen := seen) (d := 1) (new := new') (fl := fl) (nw := nw) as [A [B C]]; auto.
  - rewrite Hn. cbn [img]. apply ap_fwd; auto.
    + intros [i j] Hij. now apply Hin.
    + reflexivity.
    + constructor; auto.
      * apply (va_ends g V e v He).
      * now apply m_vars_ne.
  - rewrite Hn. cbn [img]. intros i Hi. apply m_eqs_spec in Hi as [j Hj]. now apply (Hin i j).
  - replace (S k) with (k + 1) by lia. split; auto. split; auto.
    intros SV. apply B; auto. rewrite Hn. intros w q [T [HT Hq]]. cbn in HT.
    destruct HT as [E|[]]. inversion E; subst. apply visit_new in Ev as [Ev1 _]. now apply Ev1.
Qed.

Lemma walk_back_some : forall s d m flows new, walk_back (fun _ _ => None) d s m flows new <> None.
Proof.
  induction s as [n c|p IH e n c f]; intros d m flows new.
  - rewrite walk_back_start. destruct (visit (fun _ => None) n new (img n m)) eqn:E; [discriminate|].
    now apply visit_none in E.
  - rewrite walk_back_next. cbv zeta.
    match goal with |- context [visit ?a ?b ?c ?d] => destruct (visit a b c d) eqn:E end; auto.
    now apply visit_none in E.
Qed.

(** * The accepted paths *)

Definition vin (h : vmap) (n : node) (p : point) : Prop := exists t, h n = Some t /\ In p t.

Lemma vm_add_spec : forall h n s m p, vin (vm_add h n s) m p <-> vin h m p \/ (m = n /\ In p s).
Proof.
  intros. unfold vin, vm_add. destruct (node_eq_dec m n) as [->|Hne].
  - rewrite nupd_same. split.
    + intros [t [E H]]. inversion E; subst. apply ps_union_spec in H as [H|H]; auto.
      destruct (h n) as [t|]; [left; eauto|destruct H].
    + intros [[t [E H]]|[_ H]].
      * rewrite E. eexists. split; eauto. apply ps_union_spec. auto.
      * eexists. split; eauto. apply ps_union_spec. auto.
  - rewrite nupd_other by auto. split; [auto|]. intros [H|[E _]]; [auto|congruence].
Qed.
Lemma vm_add_all : forall new h m p,
  vin (fold_left (fun v x => vm_add v (fst x) (snd x)) new h) m p <-> vin h m p \/ covers new m p.
Proof.
  induction new as [|[n s] new IH]; intros h m p; cbn [fold_left].
  - split; auto. intros [H|[S [[] _]]]. auto.
  - rewrite IH, vm_add_spec. cbn [fst snd]. unfold covers. split.
    + intros [[H|[-> H]]|[S [H1 H2]]]; auto; right; eexists; (split; [|eauto]); [now left|now right].
    + intros [H|[S [[E|H1] H2]]]; auto; [inversion E; subst; auto|right; eauto].
Qed.

(** The scalars of a path that its record keeps. *)
Definition pkey (fl : list mflow) (n : node) (p : point) : Prop :=
  (exists v, n = NV v /\ touch fl n p) \/ pstart fl n p.

Lemma filter_spec : forall g, valid g -> forall L snap paths k h hs,
  (forall s, In s paths -> bend g L s) ->
  (forall fl, In fl (filter_paths snap k (h, hs) paths) -> found g (S L) fl) /\
  (scalar_vars g ->
   (forall fl n p, In fl (filter_paths snap k (h, hs) paths) -> pkey fl n p -> ~ vin h n p) /\
   ForallOrdPairs (fun a b => forall n p, pkey a n p -> pkey b n p -> False)
     (filter_paths snap k (h, hs) paths)).
Proof.
  intros g V L snap. induction paths as [|s paths IH]; intros k h hs Hp.
  - cbn. split; [tauto|]. intros _. split; [tauto|constructor].
  - cbn [filter_paths fst snd].
    match goal with |- context [walk_back ?sn 0 s (s_flow s) [] []] => set (seen := sn) in * end.
    destruct (walk_back seen 0 s (s_flow s) [] []) as [[fl nw]|] eqn:Ew.
    2:{ apply IH. intros t Ht. apply Hp. now right. }
    destruct (walk_end g V L s (Hp s (or_introl eq_refl)) seen fl nw Ew) as [A [B C]].
    match goal with |- context [existsb ?f nw] => set (ov := f); destruct (existsb ov nw) eqn:Eo end.
    { apply IH. intros t Ht. apply Hp. now right. }
    destruct (IH (S k) (fold_left (fun v x => vm_add v (fst x) (snd x)) nw h) (h :: hs)) as [D E].
    { intros t Ht. apply Hp. now right. }
    assert (Hk : scalar_vars g -> forall n p, pkey fl n p -> covers nw n p).
    { intros SV n p [[v [-> Ht]]|Ht]; auto. }
    split.
    + intros fl' [<-|Hin]; auto.
    + intros SV. destruct (E SV) as [E1 E2]. split.
      * intros fl' n p [<-|Hin] Hkey Hvin.
        -- apply (Hk SV) in Hkey as [S [H1 H2]]. destruct Hvin as [t [Ht1 Ht2]].
           assert (existsb ov nw = true); [|congruence]. apply existsb_exists.
           exists (n, S). split; auto. unfold ov. cbn [fst snd]. rewrite Ht1.
           apply ps_overlaps_spec. eauto.
        -- apply (E1 fl' n p Hin Hkey). apply vm_add_all. auto.
      * constructor; auto. apply Forall_forall. intros fl' Hin n p Ha Hb.
        apply (E1 fl' n p Hin Hb). apply vm_add_all. right. auto.
Qed.

Lemma filter_first : forall snap s paths, filter_paths snap 0 ((fun _ => None), []) (s :: paths) <> [].
Proof.
  intros. cbn [filter_paths fst snd length rev app].
  assert (X : forall d m flows new,
    walk_back (fun d : nat => nth (Nat.min (snap 0 d) 0) [fun _ : node => @None pset] (fun _ => None))
      d s m flows new <> None).
  { induction s as [n c|p IH e n c f]; intros d m flows new.
    - rewrite walk_back_start. cbv beta. rewrite Nat.min_0_r. cbn [nth]. unfold visit. discriminate.
    - rewrite walk_back_next. cbv zeta beta. rewrite Nat.min_0_r. cbn [nth].
      match goal with |- context [visit ?a ?b ?c ?d] => destruct (visit a b c d) eqn:E end; auto.
      now apply visit_none in E. }
  destruct (walk_back _ 0 s (s_flow s) [] []) as [[fl nw]|] eqn:E; [|now apply X in E].
  assert (Ho : forall l, existsb (fun _ : node * pset => false) l = false).
  { induction l; auto. }
  rewrite Ho. discriminate.
Qed.

(** * Disjoint paths *)

Definition tch (fl : list mflow) (n : node) (p : point) : Prop := touch fl n p \/ pstart fl n p.
Definition apart (a b : list mflow) : Prop := forall n p, tch a n p -> tch b n p -> False.

Lemma trest_rems : forall g l n T fl, apath g l n T fl -> forall e i, touch fl (NE e) i ->
  exists y, fl_rems fl (e, i) y.
Proof.
  induction 1 as [v T Hn Hne Hu|k e v T d fl He Hsub H1 HT Hp IH|k e v T d fl He Hsub H1 HT Hp IH];
    intros e' i [T' [Hin HiT]].
  - destruct Hin.
  - cbn [trest snd] in Hin. rewrite touched_cons in Hin. destruct Hin as [E|Hin]; [discriminate|].
    destruct (IH e' i) as [y Hy]; [exists T'; auto|]. exists y. now rewrite rems_fwd.
  - cbn [trest fst] in Hin. rewrite touched_cons in Hin. destruct Hin as [E|Hin].
    + inversion E; subst. apply m_eqs_spec in HiT as [j Hj]. exists (v, j). apply rems_bwd. cbn. auto.
    + destruct (IH e' i) as [y Hy]; [exists T'; auto|]. exists y. apply rems_bwd. auto.
Qed.

Lemma found_start : forall g l fl, found g l fl -> forall n p, pstart fl n p ->
  exists e, n = NE e /\ In (NE e) (g_nodes g) /\ In p (mt_unmatched (g_vx g (NE e))).
Proof.
  intros g l fl (e & T & Hp & Hn & HT) n p (x & d & rest & E & Hi).
  inversion Hp as [|k e' v T' d' fl' He Hsub H1 HTT Hp' E1 E2 E3 E4|]; subst; try discriminate.
  inversion E4; subst. exists e. split; auto. split; auto. apply HT. apply HTT. exact Hi.
Qed.

Lemma keys_apart : forall g, valid g -> forall la lb a b, found g la a -> found g lb b ->
  (forall n p, pkey a n p -> pkey b n p -> False) -> apart a b.
Proof.
  intros g V la lb a b Fa Fb Hk.
  assert (X : forall l c, found g l c -> forall e i, touch c (NE e) i ->
            exists y, g_pairs g (e, i) y /\ touch c (NV (fst y)) (snd y)).
  { intros l c (ec & T & Hp & Hn & HT) e i Ht.
    destruct (trest_rems _ _ _ _ _ Hp e i Ht) as [y Hy]. exists y.
    destruct (path_edges _ _ _ _ _ Hp) as [_ Fr]. split; [now apply Fr|].
    destruct (path_touched _ _ _ _ _ Hp) as [_ Hr]. destruct (Hr _ _ Hy) as [_ [T' [Q1 Q2]]].
    rewrite touched_cons in Q1. destruct Q1 as [E|Q1]; [discriminate|]. exists T'. auto. }
  intros [v|e] p [Ha|Ha] [Hb|Hb].
  - apply (Hk (NV v) p); left; eauto.
  - destruct (found_start _ _ _ Fb _ _ Hb) as [? [? _]]. discriminate.
  - destruct (found_start _ _ _ Fa _ _ Ha) as [? [? _]]. discriminate.
  - destruct (found_start _ _ _ Fa _ _ Ha) as [? [? _]]. discriminate.
  - destruct (X _ _ Fa _ _ Ha) as [y [Py Ty]]. destruct (X _ _ Fb _ _ Hb) as [y' [Py' Ty']].
    assert (y = y') by (eapply (proj1 (va_one g V)); eauto). subst y'.
    apply (Hk (NV (fst y)) (snd y)); left; eauto.
  - destruct (X _ _ Fa _ _ Ha) as [y [Py Ty]].
    destruct (found_start _ _ _ Fb _ _ Hb) as [e' [E [Hn Hu]]]. inversion E; subst e'.
    eapply unmatched_no_pair; eauto.
  - destruct (X _ _ Fb _ _ Hb) as [y [Py Ty]].
    destruct (found_start _ _ _ Fa _ _ Ha) as [e' [E [Hn Hu]]]. inversion E; subst e'.
    eapply unmatched_no_pair; eauto.
  - apply (Hk (NE e) p); right; auto.
Qed.

(** The scalars that a path adds or removes are touched by it. *)
Lemma flows_touch : forall g l e T fl, apath g l (NE e) T fl ->
  (forall x y, fl_adds fl x y -> tch fl (NE (fst x)) (snd x) /\ tch fl (NV (fst y)) (snd y)) /\
  (forall x y, fl_rems fl x y -> tch fl (NE (fst x)) (snd x) /\ tch fl (NV (fst y)) (snd y)).
Proof.
  intros g l e T fl Hp. destruct (path_touched _ _ _ _ _ Hp) as [Ha Hr].
  assert (X : forall n p T', In (n, T') (touched (NE e) T fl) -> In p T' -> tch fl n p).
  { intros n p T' Hin Hp'. rewrite touched_cons in Hin. destruct Hin as [E|Hin].
    - inversion E; subst. right. inversion Hp as [|k e' v T0 d' fl' He Hsub H1 HTT Hp0 E1 E2 E3 E4|]; subst.
      exists (e, v), d', fl'. split; auto. cbn. now apply HTT.
    - left. exists T'. auto. }
  split; intros x y H.
  - destruct (Ha x y H) as [[T1 [A B]] [T2 [C D]]]. split; [eapply X; eauto|left; exists T2; auto].
  - destruct (Hr x y H) as [[T1 [A B]] [T2 [C D]]]. split; [left; exists T1; auto|eapply X; eauto].
Qed.

Lemma apath_frame : forall g g' b, valid g -> valid g' -> applied g b g' ->
  (exists l e T, apath g l (NE e) T b) ->
  forall l n T a, apath g l n T a ->
  (forall m T' p, In (m, T') (touched n T a) -> In p T' -> tch b m p -> False) -> apath g' l n T a.
Proof.
  intros g g' b V V' A (lb & eb & Tb & Hb).
  destruct (flows_touch _ _ _ _ _ Hb) as [Ta Tr]. destruct A as [[S1 [S2 [S3 S4]]] _ Apairs Afree _ _ Avar].
  induction 1 as [v T Hn Hne Hu|k e v T d fl He Hsub H1 HT Hp IH|k e v T d fl He Hsub H1 HT Hp IH];
    intros Hd.
  - constructor; auto; [now rewrite S1|]. intros j Hj.
    assert (Hn' : In (NV v) (g_nodes g')) by now rewrite S1.
    destruct (va_part g V _ Hn j) as [P1 P2]. destruct (va_part g' V' _ Hn' j) as [P3 P4].
    rewrite S3 in P3. specialize (Hu j Hj).
    assert (Hx : In j (mt_matched (g_vx g' (NV v))) \/ In j (mt_unmatched (g_vx g' (NV v)))) by tauto.
    destruct Hx as [Hx|Hx]; auto. apply Avar in Hx as [Hx|[x Hx]]; auto; [tauto|].
    exfalso. destruct (Ta _ _ Hx) as [_ Hx']. eapply (Hd (NV v) T j); eauto. cbn. auto.
  - assert (Hd' : forall m T' p, In (m, T') (touched (NV v) (m_vars d) fl) -> In p T' -> tch b m p -> False).
    { intros m T' p Hin. apply Hd. rewrite touched_cons. right. exact Hin. }
    constructor; auto; [now rewrite S2|]. intros [i j] Hij.
    apply (proj2 (Afree (e, i) (v, j))). right. split; [split; auto|]. intros Hx.
    destruct (Ta _ _ Hx) as [Hx' _]. eapply (Hd (NE e) T i); eauto; [rewrite touched_cons; now left|].
    apply HT. apply m_eqs_spec. eauto.
  - assert (Hd' : forall m T' p, In (m, T') (touched (NE e) (m_eqs d) fl) -> In p T' -> tch b m p -> False).
    { intros m T' p Hin. apply Hd. rewrite touched_cons. right. exact Hin. }
    constructor; auto; [now rewrite S2|]. intros [i j] Hij.
    apply (proj2 (Apairs (e, i) (v, j))). right. split; [split; auto|]. intros Hx.
    destruct (Tr _ _ Hx) as [_ Hx']. eapply (Hd (NV v) T j); eauto; [rewrite touched_cons; now left|].
    apply HT. apply m_vars_spec. eauto.
Qed.

Lemma augmenting_frame : forall g g' b a, valid g -> applied g b g' -> augmenting g b ->
  augmenting g a -> apart b a -> augmenting g' a.
Proof.
  intros g g' b a V A Hb (l & e & T & Hp & Hn & HT & Ho) Hap.
  pose proof (al_valid _ _ _ A) as V'.
  assert (Hb' : exists l e T, apath g l (NE e) T b) by (destruct Hb as (l' & e' & T' & H & _); eauto).
  assert (X : forall m T' p, In (m, T') (touched (NE e) T a) -> In p T' -> tch b m p -> False).
  { intros m T' p Hin Hp' Ht. apply (Hap m p Ht). rewrite touched_cons in Hin. destruct Hin as [E|Hin].
    - inversion E; subst. right. inversion Hp as [|k e' v T0 d' fl' He Hsub H1 HTT Hp0 E1 E2 E3 E4|]; subst.
      exists (e, v), d', fl'. split; auto. cbn. now apply HTT.
    - left. exists T'. auto. }
  exists l, e, T. split; [exact (apath_frame g g' b V V' A Hb' _ _ _ _ Hp X)|].
  destruct (al_same _ _ _ A) as (S1 & S2 & S3 & S4). assert (Hn1 : In (NE e) (g_nodes g')) by (now rewrite S1). split; [exact Hn1|]. split; [|exact Ho].
  intros i Hi. assert (Hn' : In (NE e) (g_nodes g')) by now rewrite S1.
  destruct (va_part g V _ Hn i) as [P1 P2]. destruct (va_part g' V' _ Hn' i) as [P3 P4].
  rewrite S3 in P3. specialize (HT i Hi).
  assert (Hx : In i (mt_matched (g_vx g' (NE e))) \/ In i (mt_unmatched (g_vx g' (NE e)))) by tauto.
  destruct Hx as [Hx|Hx]; auto. apply (al_eq _ _ _ A) in Hx as [Hx|[y Hx]]; auto; [tauto|].
  exfalso. destruct Hb' as (lb & eb & Tb & Hb'). destruct (flows_touch _ _ _ _ _ Hb') as [Ta _].
  destruct (Ta _ _ Hx) as [Hx' _]. eapply (X (NE e) T i); eauto. rewrite touched_cons. now left.
Qed.

Lemma same_graph_trans : forall a b c, same_graph a b -> same_graph b c -> same_graph a c.
Proof.
  intros a b c (A1 & A2 & A3 & A4) (B1 & B2 & B3 & B4). repeat split; try congruence.
Qed.
Lemma same_graph_refl : forall a, same_graph a a.
Proof. intros a. repeat split. Qed.

Lemma apply_all : forall R g, valid g -> (forall fl, In fl R -> augmenting g fl) ->
  ForallOrdPairs apart R ->
  exists g', fold_res apply_path R g = Ok g' /\ valid g' /\ same_graph g g' /\
  (forall n p, In n (g_nodes g) -> In p (mt_matched (g_vx g n)) -> In p (mt_matched (g_vx g' n))) /\
  (R <> [] -> exists e i, In (NE e) (g_nodes g) /\ In i (mt_unmatched (g_vx g (NE e))) /\
                          In i (mt_matched (g_vx g' (NE e)))).
Proof.
  induction R as [|b R IH]; intros g V Ha Hap.
  - exists g. cbn. split; auto. split; auto. split; [apply same_graph_refl|]. split; auto. congruence.
  - cbn [fold_res]. pose proof (Ha b (or_introl eq_refl)) as Hb.
    destruct (apply_augmenting g b V Hb) as [g1 [E1 [A1 (e & i & He & Hu & Hm)]]]. rewrite E1. cbn [bind].
    inversion Hap as [|? ? Hb1 Hb2]; subst.
    destruct (IH g1 (al_valid _ _ _ A1)) as [g' (E & V' & S' & K' & _)]; auto.
    { intros fl Hin. eapply augmenting_frame; eauto; [apply Ha; now right|].
      rewrite Forall_forall in Hb1. auto. }
    exists g'. split; auto. split; auto. split; [eapply same_graph_trans; eauto; apply (al_same _ _ _ A1)|].
    destruct (al_same _ _ _ A1) as (S1 & _). split.
    + intros n p Hn Hp. apply K'; [now rewrite S1|]. apply (al_keep _ _ _ A1); auto.
    + intros _. exists e, i. split; auto. split; auto. apply K'; auto. now rewrite S1.
Qed.
