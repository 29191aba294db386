(** Proofs about the dependency graphs and the schedules. *)
From Coq Require Import ZArith List Bool Arith Lia Permutation Relations.
From Verif Require Import RangeModel MDRangeModel Spec MDRangeProofs Result BoxSetModel BoxSetProofs ListTac AccessModel AccessSpec AccessProofs
  AccessImageProofs AccessInverseProofs AccessPreimageProofs AccessCombineProofs WritesMapModel WritesMapProofs LoopModel SchedModel SchedSpec PostOrderProofs.
Import ListNotations.
Local Open Scope nat_scope.

(** * Images *)

Lemma roto_range_ok : forall n b e, roto_expr n e -> box_of n b -> range_ok (roto_range b e).
Proof.
  intros n b e He ((_ & B) & L). rewrite Forall_forall in B. destruct He as [d Hd|c|d c Hd Hc]; cbn.
  - apply B, nth_In. lia.
  - unfold range_ok. cbn. lia.
  - assert (X : range_ok (nth d b (mkRange 0 1))) by (apply B, nth_In; lia). unfold range_ok in *. cbn. lia.
Qed.

Lemma image_boxes : forall n k f s t, af_wf n k f -> 1 <= n -> 1 <= k -> bs_of n s ->
  (forall p u, in_boxes p s -> af_map_point f p = Ok u -> bs_of k u) ->
  af_map_set f s = Ok t -> bs_of k t.
Proof.
  intros n k f s t W Hn Hk S D H. pose proof W as W0.
  destruct f as [|n' rs|n' rs|n' rs|n' rs]; cbn [af_wf] in W.
  - lia.
  - destruct W as (-> & Lk & F & _). cbn [af_map_set] in H. destruct (consts_values rs F) as (v & Hv & Lv & V).
    destruct (bs_empty s && _); [injection H as <-; constructor|]. destruct rs; [cbn in Lk; lia|]. rewrite Hv in H. cbn [bind] in H. injection H as <-.
    constructor; [|constructor]. apply of_point_box; [congruence|assumption].
  - destruct W as (-> & Lk & _ & F). cbn [af_map_set] in H. destruct (Nat.eqb_spec n 0); [lia|]. rewrite andb_true_r in H.
    destruct (bs_empty s) eqn:E; [injection H as <-; constructor|]. destruct (bs_nonempty n s S) as (p & Hp); [destruct s; discriminate|].
    apply (D p t Hp). cbn. now rewrite (gen_const p (repeat 0%Z n) rs F).
  - destruct W as (-> & Lk & _ & _ & F). cbn [af_map_set] in H.
    assert (X : map_res (roto_map_box n rs) s = Ok (map (fun b => map (roto_range b) rs) s)).
    { apply map_res_ok. clear - S F. induction S as [|b s Hb S IH]; constructor; [|assumption]. now apply roto_map_box_eq. }
    rewrite X in H. injection H as <-. apply Forall_forall. intros b' Hb'. apply in_map_iff in Hb' as (b & <- & Hb).
    unfold bs_of in S. rewrite Forall_forall in S. specialize (S b Hb). split; [split|].
    + intros E. apply map_eq_nil in E. subst rs. cbn in Lk. lia.
    + apply Forall_forall. intros r Hr. apply in_map_iff in Hr as (e & <- & He). rewrite Forall_forall in F. exact (roto_range_ok n b e (F e He) S).
    + now rewrite map_length.
  - destruct W as (-> & _). cbn [af_map_set] in H. cbn [af_map_point] in D.
    assert (D' : forall p u, In p (bs_points s) -> gen_map_point rs p = Ok u -> bs_of k u) by (intros p u Hp; apply D; now apply in_bs_points).
    clear - H D'. assert (A : bs_of k []) by constructor. revert H A D'. generalize (@nil mdrange). generalize (bs_points s).
    induction l as [|p l IH]; intros acc H A D; cbn in H; [now injection H as <-|].
    apply bind_ok in H as (acc' & H' & H). apply bind_ok in H' as (u & Hu & H'). injection H' as <-.
    apply (IH _ H); [|intros; apply (D p0); auto; now right]. apply Forall_app. split; [assumption|]. apply (D p); [now left|assumption].
Qed.

Section Graphs.
Variable m : mlir.
Hypothesis M : mlir_ok m.
Variable vrank : nat -> nat.

Lemma access_image : forall e v f, equation_ok m vrank e -> In (v, f) (eq_writes e ++ eq_reads e) ->
  exists t, af_map_set f (eq_space e) = Ok t /\ bs_of (vrank v) t /\
    (forall p q, in_boxes p (eq_space e) -> accesses f p q -> in_boxes q t) /\
    (one_use f -> forall q, in_boxes q t -> exists p, in_boxes p (eq_space e) /\ accesses f p q).
Proof.
  intros e v f E H. destruct (accesses_built m vrank e E v f H) as (Hk & B). pose proof (built_access_wf m M _ _ f B) as W.
  pose proof (rank_positive m vrank e E) as Hn. pose proof (space_boxes m vrank e E) as S.
  destruct (image_defined _ _ f (eq_space e) W Hn S) as (t & Ht).
  { intros p Hp. destruct (accesses_defined m vrank e E v f p H Hp) as (u & Hu & _). eauto. }
  exists t. split; [assumption|]. split; [|split].
  - refine (image_boxes _ _ f _ _ W Hn Hk S _ Ht). intros p u Hp Hu. destruct (accesses_defined m vrank e E v f p H Hp) as (u' & Hu' & Bu).
    rewrite Hu in Hu'. injection Hu' as <-. exact Bu.
  - intros p q. exact (image_sub _ _ f _ _ W Hn Hk S Ht p q).
  - intros O q Hq. now apply (image_exact _ _ f _ _ W Hn Hk S O Ht q).
Qed.

(** * Array equations *)

Lemma written_indices_ok : forall e v f0 ws, equation_ok m vrank e -> one_written e -> eq_writes e = (v, f0) :: ws ->
  exists s, written_indices e = Ok s /\ bs_of (vrank v) s /\ (forall q, writes_index e v q -> in_boxes q s) /\
    (functions_once e -> forall q, in_boxes q s -> writes_index e v q).
Proof.
  intros e v f0 ws E O1 Ew. unfold written_indices, writes_index, writes_element.
  assert (X : forall l acc, incl l (eq_writes e) -> bs_of (vrank v) acc ->
    exists s, fold_res (fun acc w => s <- af_map_set (snd w) (eq_space e) ;; Ok (bs_union acc s)) l acc = Ok s /\ bs_of (vrank v) s /\
      (forall q, in_boxes q acc \/ (exists p f, in_boxes p (eq_space e) /\ In (v, f) l /\ accesses f p q) -> in_boxes q s) /\
      (functions_once e -> forall q, in_boxes q s -> in_boxes q acc \/ exists p f, in_boxes p (eq_space e) /\ In (v, f) l /\ accesses f p q)).
  { induction l as [|[v' f] l IH]; intros acc Hi Ha.
    - exists acc. split; [reflexivity|]. split; [assumption|]. split; [|intros _ q Hq; now left]. intros q [Hq|(p & f & _ & [] & _)]. assumption.
    - assert (Hf : In (v', f) (eq_writes e)) by (apply Hi; now left).
      assert (Ev : v' = v) by (apply (O1 v' f v f0); [assumption|rewrite Ew; now left]). subst v'.
      destruct (access_image e v f E) as (t & Ht & Bt & Sub & Ex); [apply in_or_app; now left|].
      cbn [fold_res snd]. rewrite Ht. cbn [bind].
      destruct (IH (bs_union acc t)) as (s & Hs & Bs & S1 & S2).
      { intros x Hx. apply Hi. now right. }
      { apply Forall_app. now split. }
      exists s. split; [assumption|]. split; [assumption|]. split.
      + intros q Hq. apply S1. rewrite bs_union_spec. destruct Hq as [Hq|(p & g & Hp & [Hg|Hg] & Ha')].
        * left. now left.
        * injection Hg as <-. left. right. now apply (Sub p).
        * right. exists p, g. auto.
      + intros Fo q Hq. destruct (S2 Fo q Hq) as [Hu|(p & g & Hp & Hg & Ha')].
        * rewrite bs_union_spec in Hu. destruct Hu as [Hu|Hu]; [now left|]. right.
          destruct (Ex (Fo v f (in_or_app _ _ _ (or_introl Hf))) q Hu) as (p & Hp & Ha'). exists p, f. split; [assumption|]. split; [now left|assumption].
        * right. exists p, g. split; [assumption|]. split; [now right|assumption]. }
  destruct (X (eq_writes e) [] (incl_refl _) (Forall_nil _)) as (s & Hs & Bs & S1 & S2).
  exists s. split; [assumption|]. split; [assumption|]. split.
  - intros q (p & Hp & f & Hf & Ha). apply S1. right. exists p, f. auto.
  - intros Fo q Hq. destruct (S2 Fo q Hq) as [(b & [] & _)|(p & f & Hp & Hf & Ha)]. exists p. split; [assumption|]. exists f. auto.
Qed.

(** The entries of the writes map after the insertion of some equations. *)
Definition map_entries (wm : list (nat * list wentry)) (v : nat) : list wentry :=
  match map_find v wm with Some t => t | None => [] end.
Lemma insert_entries : forall v s d wm u,
  map_entries (insert_writes v s d wm) u = map_entries wm u ++ (if Nat.eqb u v then map (fun b => (b, d)) s else []).
Proof.
  intros v s d wm u. unfold insert_writes. destruct (add_ranges v d s wm) as (A1 & A2 & _). cbv zeta in A1, A2.
  unfold map_entries. destruct (Nat.eqb_spec u v) as [->|D].
  - destruct s as [|b s]; [cbn; now rewrite app_nil_r|]. rewrite A2 by discriminate. reflexivity.
  - rewrite (A1 u D), app_nil_r. reflexivity.
Qed.

Lemma mapWrites_ok : forall eqs ord, Forall (equation_ok m vrank) eqs -> Forall one_written eqs -> incl ord (seq 0 (length eqs)) ->
  forall wm0, exists wm, fold_res (mapWrite eqs) ord wm0 = Ok wm /\
    forall v, exists new, map_entries wm v = map_entries wm0 v ++ new /\
      (forall b d, In (b, d) new -> In d ord /\ exists e, nth_error eqs d = Some e /\ box_of (vrank v) b /\
          (functions_once e -> forall q, in_box q b -> writes_index e v q)) /\
      (forall d e q, In d ord -> nth_error eqs d = Some e -> writes_index e v q -> exists b, In (b, d) new /\ in_box q b).
Proof.
  intros eqs ord E O. rewrite Forall_forall in E, O. induction ord as [|d ord IH]; intros Hi wm0.
  - exists wm0. split; [reflexivity|]. intros v. exists []. rewrite app_nil_r. split; [reflexivity|]. split; [intros b d []|intros d e q []].
  - assert (Hd : d < length eqs) by (assert (In d (seq 0 (length eqs))) by (apply Hi; now left); rewrite in_seq in *; lia).
    destruct (nth_error eqs d) as [e|] eqn:Ed; [|apply nth_error_None in Ed; lia].
    pose proof (nth_error_In _ _ Ed) as He. cbn [fold_res]. unfold mapWrite at 1. rewrite Ed. cbn [of_option bind].
    assert (Hi' : incl ord (seq 0 (length eqs))) by (intros x Hx; apply Hi; now right).
    destruct (eq_writes e) as [|[v0 f0] ws] eqn:Ew; cbn [bind].
    + destruct (IH Hi' wm0) as (wm & Hwm & W). exists wm. split; [assumption|]. intros v. destruct (W v) as (new & En & N1 & N2).
      exists new. split; [assumption|]. split.
      * intros b d' Hb. destruct (N1 b d' Hb) as (Hd' & X). split; [now right|assumption].
      * intros d' e' q [<-|Hd'] He' Hw; [|exact (N2 d' e' q Hd' He' Hw)]. destruct Hw as (p & Hp & f & Hf & _).
        rewrite Ed in He'. injection He' as <-. rewrite Ew in Hf. destruct Hf.
    + destruct (written_indices_ok e v0 f0 ws (E e He) (O e He) Ew) as (s & Hs & Bs & S1 & S2). rewrite Hs. cbn [bind fst].
      destruct (IH Hi' (insert_writes v0 s d wm0)) as (wm & Hwm & W). exists wm. split; [assumption|]. intros v.
      destruct (W v) as (new & En & N1 & N2). rewrite insert_entries, <- app_assoc in En. eexists. split; [exact En|]. split.
      * intros b d' Hb. apply in_app_iff in Hb as [Hb|Hb].
        -- destruct (Nat.eqb_spec v v0) as [->|_]; [|destruct Hb]. apply in_map_iff in Hb as (b' & Eb & Hb). injection Eb as <- <-.
           split; [now left|]. exists e. split; [assumption|]. unfold bs_of in Bs. rewrite Forall_forall in Bs. split; [now apply Bs|].
           intros Fo q Hq. apply (S2 Fo). exists b'. auto.
        -- destruct (N1 b d' Hb) as (Hd' & X). split; [now right|assumption].
      * intros d' e' q [<-|Hd'] He' Hw.
        -- rewrite Ed in He'. injection He' as <-. destruct Hw as (p & Hp & f & Hf & Ha).
           assert (Ev : v = v0) by (apply (O e He v f v0 f0 Hf); rewrite Ew; now left). subst v.
           destruct (S1 q) as (b & Hb & Hq); [exists p; split; [assumption|]; exists f; auto|]. exists b. split; [|assumption].
           apply in_or_app. left. rewrite Nat.eqb_refl. apply in_map_iff. eauto.
        -- destruct (N2 d' e' q Hd' He' Hw) as (b & Hb & Hq). exists b. split; [|assumption]. apply in_or_app. now right.
Qed.

Lemma read_variables_ok : forall e, equation_ok m vrank e ->
  exists rv, read_variables e = Ok rv /\ forall v,
    let s := match map_find v rv with Some t => t | None => [] end in
    bs_of (vrank v) s /\ (forall q, reads_index e v q -> in_boxes q s) /\
    (functions_once e -> forall q, in_boxes q s -> reads_index e v q) /\ NoDup (map fst rv).
Proof.
  intros e E. unfold read_variables, reads_index, reads_element.
  set (get := fun v rv => match @map_find bset v rv with Some t => t | None => [] end).
  assert (X : forall l rv, incl l (eq_reads e) -> (forall v, bs_of (vrank v) (get v rv)) -> NoDup (map fst rv) ->
    exists rv', fold_res (fun rv r => s <- af_map_set (snd r) (eq_space e) ;; Ok (map_update (fst r) [] (fun t => bs_union t s) rv)) l rv = Ok rv' /\
      NoDup (map fst rv') /\ forall v, bs_of (vrank v) (get v rv') /\
      (forall q, in_boxes q (get v rv) \/ (exists p f, in_boxes p (eq_space e) /\ In (v, f) l /\ accesses f p q) -> in_boxes q (get v rv')) /\
      (functions_once e -> forall q, in_boxes q (get v rv') -> in_boxes q (get v rv) \/ exists p f, in_boxes p (eq_space e) /\ In (v, f) l /\ accesses f p q)).
  { induction l as [|[v' f] l IH]; intros rv Hi Ha N.
    - exists rv. split; [reflexivity|]. split; [assumption|]. intros v. split; [apply Ha|]. split; [|intros _ q Hq; now left].
      intros q [Hq|(p & f & _ & [] & _)]. assumption.
    - assert (Hf : In (v', f) (eq_reads e)) by (apply Hi; now left).
      destruct (access_image e v' f E) as (t & Ht & Bt & Sub & Ex); [apply in_or_app; now right|].
      cbn [fold_res fst snd]. rewrite Ht. cbn [bind].
      assert (G : forall v, get v (map_update v' [] (fun u => bs_union u t) rv) = if Nat.eqb v v' then bs_union (get v rv) t else get v rv).
      { intros v. unfold get. rewrite find_update. destruct (Nat.eqb_spec v v') as [->|]; [|reflexivity]. reflexivity. }
      destruct (IH (map_update v' [] (fun u => bs_union u t) rv)) as (rv' & Hr & N' & R).
      { intros x Hx. apply Hi. now right. }
      { intros v. rewrite G. destruct (Nat.eqb_spec v v') as [->|]; [|apply Ha]. apply Forall_app. split; [apply Ha|assumption]. }
      { now apply update_keys. }
      exists rv'. split; [assumption|]. split; [assumption|]. intros v. destruct (R v) as (R1 & R2 & R3). rewrite G in R2, R3. split; [assumption|]. split.
      + intros q Hq. apply R2. destruct Hq as [Hq|(p & g & Hp & [Hg|Hg] & Ha')].
        * left. destruct (Nat.eqb v v'); [|assumption]. apply bs_union_spec. now left.
        * injection Hg as <- <-. left. rewrite Nat.eqb_refl. apply bs_union_spec. right. now apply (Sub p).
        * right. exists p, g. auto.
      + intros Fo q Hq. destruct (R3 Fo q Hq) as [Hu|(p & g & Hp & Hg & Ha')].
        * destruct (Nat.eqb_spec v v') as [->|]; [|now left]. apply bs_union_spec in Hu as [Hu|Hu]; [now left|]. right.
          destruct (Ex (Fo v' f (in_or_app _ _ _ (or_intror Hf))) q Hu) as (p & Hp & Ha'). exists p, f. split; [assumption|]. split; [now left|assumption].
        * right. exists p, g. split; [assumption|]. split; [now right|assumption]. }
  destruct (X (eq_reads e) [] (incl_refl _) (fun v => Forall_nil _) (NoDup_nil _)) as (rv & Hr & N & R).
  exists rv. split; [assumption|]. intros v. cbv zeta. fold (get v rv). destruct (R v) as (R1 & R2 & R3). split; [assumption|]. split; [|split; [|assumption]].
  - intros q (p & Hp & f & Hf & Ha). apply R2. right. exists p, f. auto.
  - intros Fo q Hq. destruct (R3 Fo q Hq) as [(b & [] & _)|(p & f & Hp & Hf & Ha)]. exists p. split; [assumption|]. exists f. auto.
Qed.

Lemma overlaps_box : forall k s b, bs_of k s -> box_of k b -> (bs_overlaps s [b] = true <-> exists q, in_boxes q s /\ in_box q b).
Proof.
  intros k s b S B. rewrite bs_overlaps_spec. split; intros (q & Hq & Hb).
  - destruct Hb as (b' & [<-|[]] & Hb). eauto.
  - exists q. split; [assumption|]. exists b. split; [now left|assumption].
Qed.

(** The edges from one equation. *)
Lemma edges_of_reads_in : forall wm d rv a b, NoDup (map fst rv) ->
  (forall v s, In (v, s) rv -> bs_of (vrank v) s) -> (forall v x, In x (map_entries wm v) -> box_of (vrank v) (fst x)) ->
  (In (a, b) (edges_of_reads wm d rv) <->
   a = d /\ exists v s x q, In (v, s) rv /\ In x (map_entries wm v) /\ snd x = b /\ in_boxes q s /\ in_box q (fst x)).
Proof.
  intros wm d rv a b N S B. unfold edges_of_reads. rewrite in_flat_map. split.
  - intros ([v s] & Hr & H). cbn [fst snd] in H. specialize (S v s Hr). specialize (B v). unfold map_entries in B.
    destruct (map_find v wm) as [t|] eqn:F; [|destruct H]. apply in_flat_map in H as (r & Hr' & H). apply in_map_iff in H as (x & Ex & H).
    injection Ex as -> <-. apply filter_In in H as (H & Ho). unfold overlapping_entries in H. apply filter_In in H as (Hx & _).
    split; [reflexivity|]. apply (overlaps_box _ _ _ S (B x Hx)) in Ho as (q & Hq & Hb). exists v, s, x, q. unfold map_entries. rewrite F. auto.
  - intros (-> & v & s & x & q & Hr & Hx & <- & Hq & Hb). exists (v, s). split; [assumption|]. cbn [fst snd]. specialize (S v s Hr). specialize (B v).
    unfold map_entries in *. destruct (map_find v wm) as [t|] eqn:F; [|destruct Hx]. pose proof Hq as (r & Hr' & Hqr).
    apply in_flat_map. exists r. split; [assumption|]. apply in_map_iff. exists x. split; [reflexivity|]. apply filter_In. split.
    + unfold overlapping_entries. apply filter_In. split; [assumption|]. unfold bs_of in S. rewrite Forall_forall in S. specialize (S r Hr').
      specialize (B x Hx). destruct S as ((_ & S1) & S2), B as ((_ & B1) & B2). apply mdrange_overlaps_spec; try assumption; [congruence|]. eauto.
    + apply (overlaps_box _ _ _ S (B x Hx)). eauto.
Qed.

Lemma array_graph_ok : forall eqs ord tasks, Forall (equation_ok m vrank) eqs -> Forall one_written eqs ->
  Permutation ord (seq 0 (length eqs)) -> Permutation tasks (seq 0 (length eqs)) ->
  exists g, array_graph eqs ord tasks = Ok g /\
    (forall a b ea eb v q, nth_error eqs a = Some ea -> nth_error eqs b = Some eb -> reads_index ea v q -> writes_index eb v q -> In (a, b) g) /\
    (Forall functions_once eqs -> forall a b, In (a, b) g ->
       exists ea eb v q, nth_error eqs a = Some ea /\ nth_error eqs b = Some eb /\ reads_index ea v q /\ writes_index eb v q).
Proof.
  intros eqs ord tasks E O Po Pt. unfold array_graph.
  destruct (mapWrites_ok eqs ord E O) with (wm0 := @nil (nat * list wentry)) as (wm & Hw & W).
  { intros x Hx. exact (Permutation_in _ Po Hx). }
  rewrite Hw. cbn [bind].
  assert (B : forall v x, In x (map_entries wm v) -> box_of (vrank v) (fst x)).
  { intros v [b d] Hx. destruct (W v) as (new & En & N1 & _). rewrite En in Hx. cbn in Hx. destruct (N1 b d Hx) as (_ & e & _ & Bb & _). exact Bb. }
  rewrite Forall_forall in E.
  assert (Q : forall a, In a tasks -> exists ea rv, nth_error eqs a = Some ea /\ In ea eqs /\ read_variables ea = Ok rv /\ equation_edges eqs wm a = Ok (edges_of_reads wm a rv)).
  { intros a Ha. apply (Permutation_in _ Pt) in Ha. apply in_seq in Ha. destruct (nth_error eqs a) as [ea|] eqn:Ea; [|apply nth_error_None in Ea; lia].
    pose proof (nth_error_In _ _ Ea) as He. destruct (read_variables_ok ea (E ea He)) as (rv & Hr & _). exists ea, rv. split; [reflexivity|].
    split; [assumption|]. split; [assumption|]. unfold equation_edges. rewrite Ea. cbn. now rewrite Hr. }
  destruct (map_res_total _ _ (equation_edges eqs wm) tasks) as (l & Hl).
  { intros a Ha. destruct (Q a Ha) as (ea & rv & _ & _ & _ & H). eauto. }
  rewrite Hl. cbn [bind]. exists (concat l). split; [reflexivity|].
  assert (In_l : forall a b, In (a, b) (concat l) <-> In a tasks /\ exists ea rv, nth_error eqs a = Some ea /\ In ea eqs /\ read_variables ea = Ok rv /\ In (a, b) (edges_of_reads wm a rv)).
  { intros a b. rewrite in_concat. split.
    - intros (es & He & Hin). destruct (map_res_in _ _ _ _ _ es Hl He) as (a' & Ha' & Hes). destruct (Q a' Ha') as (ea & rv & Ea & Hea & Hrv & Heq).
      rewrite Heq in Hes. injection Hes as <-. destruct (read_variables_ok ea (E ea Hea)) as (rv' & Hr & R). rewrite Hrv in Hr. injection Hr as <-.
      pose proof (proj2 (proj2 (proj2 (R 0)))) as N.
      assert (S : forall v s, In (v, s) rv -> bs_of (vrank v) s).
      { intros v s Hs. apply (find_in _ v rv s N) in Hs. destruct (R v) as (R1 & _). now rewrite Hs in R1. }
      pose proof Hin as Hin'. apply (edges_of_reads_in wm a' rv a b N S B) in Hin' as (-> & _). split; [assumption|]. exists ea, rv. auto.
    - intros (Ha & ea & rv & Ea & Hea & Hrv & Hin). destruct (Q a Ha) as (ea' & rv' & Ea' & _ & Hrv' & Heq). rewrite Ea in Ea'. injection Ea' as <-.
      rewrite Hrv in Hrv'. injection Hrv' as <-. destruct (map_res_in2 _ _ _ _ _ a Hl Ha) as (es & Hin' & Hes). rewrite Heq in Hes. injection Hes as <-. eauto. }
  split.
  - intros a b ea eb v q Ea Eb Hr Hw'. apply In_l. pose proof (nth_error_In _ _ Ea) as Hea.
    assert (Ha : In a tasks).
    { apply (Permutation_in _ (Permutation_sym Pt)), in_seq. apply nth_error_Some_lt in Ea || (assert (a < length eqs) by (apply nth_error_Some; congruence)); lia. }
    split; [assumption|]. destruct (read_variables_ok ea (E ea Hea)) as (rv & Hrv & R). exists ea, rv. split; [assumption|]. split; [assumption|]. split; [assumption|].
    pose proof (proj2 (proj2 (proj2 (R 0)))) as N.
    assert (S : forall v s, In (v, s) rv -> bs_of (vrank v) s).
    { intros u s Hs. apply (find_in _ u rv s N) in Hs. destruct (R u) as (R1 & _). now rewrite Hs in R1. }
    apply (edges_of_reads_in wm a rv a b N S B). split; [reflexivity|]. destruct (R v) as (_ & R2 & _). specialize (R2 q Hr).
    destruct (map_find v rv) as [s|] eqn:Fs; [|destruct R2 as (? & [] & _)]. destruct (W v) as (new & En & _ & N2). cbn in En.
    destruct (N2 b eb q) as (bx & Hb & Hq); [apply (Permutation_in _ (Permutation_sym Po)), in_seq; assert (b < length eqs) by (apply nth_error_Some; congruence); lia|assumption|assumption|].
    exists v, s, (bx, b), q. split; [now apply find_in|]. rewrite En. auto.
  - intros Fo a b Hab. rewrite Forall_forall in Fo. apply In_l in Hab as (Ha & ea & rv & Ea & Hea & Hrv & Hin).
    destruct (read_variables_ok ea (E ea Hea)) as (rv' & Hr & R). rewrite Hrv in Hr. injection Hr as <-. pose proof (proj2 (proj2 (proj2 (R 0)))) as N.
    assert (S : forall v s, In (v, s) rv -> bs_of (vrank v) s).
    { intros u s Hs. apply (find_in _ u rv s N) in Hs. destruct (R u) as (R1 & _). now rewrite Hs in R1. }
    apply (edges_of_reads_in wm a rv a b N S B) in Hin as (_ & v & s & [bx d] & q & Hs & Hx & Ed & Hq & Hb). cbn [fst snd] in *. subst d.
    destruct (W v) as (new & En & N1 & _). rewrite En in Hx. cbn in Hx. destruct (N1 bx b Hx) as (_ & eb & Eb & _ & Wb).
    exists ea, eb, v, q. split; [assumption|]. split; [assumption|]. split.
    + destruct (R v) as (_ & _ & R3 & _). apply (R3 (Fo ea Hea)). apply (find_in _ v rv s N) in Hs. now rewrite Hs.
    + apply (Wb (Fo eb (nth_error_In _ _ Eb))). assumption.
Qed.

(** * Scalar equations *)

Lemma find_res_in : forall A (f : A -> res bool) l x, find_res f l = Ok (Some x) -> In x l.
Proof.
  intros A f. induction l as [|a l IH]; intros x H; cbn in H; [discriminate|]. apply bind_ok in H as (b & _ & H).
  destruct b; [injection H as <-; now left|right; auto].
Qed.
Lemma find_res_total : forall A (f : A -> res bool) l, (forall x, In x l -> exists b, f x = Ok b) -> exists o, find_res f l = Ok o.
Proof.
  intros A f. induction l as [|a l IH]; intros H; cbn; [eauto|]. destruct (H a) as (b & Hb); [now left|]. rewrite Hb. cbn.
  destruct b; [eauto|]. apply IH. intros x Hx. apply H. now right.
Qed.
Lemma access_with_property : forall f l, l <> [] -> (forall x, In x l -> exists b, f x = Ok b) ->
  exists x, getAccessWithProperty f l = Ok x /\ In x l.
Proof.
  intros f l N T. unfold getAccessWithProperty. destruct l as [|a l]; [congruence|]. destruct (find_res_total _ f (a :: l) T) as (o & Ho).
  rewrite Ho. cbn [bind]. destruct o as [x|]; eexists; (split; [reflexivity|]); [eapply find_res_in; eassumption|now left].
Qed.

(** What is needed of a vertex of the scalar graph. *)
Definition scalar_vertex (eqs : list equation) (x : nat * point) : Prop :=
  exists e, nth_error eqs (fst x) = Some e /\ eq_writes e <> [] /\ in_boxes (snd x) (eq_space e).

Lemma single_image : forall e v f p, equation_ok m vrank e -> single_valued e -> In (v, f) (eq_writes e ++ eq_reads e) ->
  in_boxes p (eq_space e) -> exists u q, af_map_point f p = Ok u /\ bs_of (vrank v) u /\ u <> [] /\ forall x, in_boxes x u <-> x = q.
Proof.
  intros e v f p E S H Hp. destruct (S v f p H Hp) as (q & u & Hu & Q). exists u, q. split; [assumption|].
  destruct (accesses_defined m vrank e E v f p H Hp) as (u' & Hu' & B). rewrite Hu in Hu'. injection Hu' as <-. split; [assumption|]. split; [|assumption].
  intros ->. destruct (proj2 (Q q) eq_refl) as (b & [] & _).
Qed.

Lemma scalar_writes_ok : forall eqs vs ord, Forall (equation_ok m vrank) eqs -> Forall same_writes eqs -> Forall single_valued eqs ->
  Forall (scalar_vertex eqs) vs -> incl ord (seq 0 (length vs)) ->
  forall wm0, exists wm, fold_res (scalar_mapWrite eqs vs) ord wm0 = Ok wm /\
    forall v, exists new, map_entries wm v = map_entries wm0 v ++ new /\
      (forall b d, In (b, d) new -> In d ord /\ exists x e q, nth_error vs d = Some x /\ nth_error eqs (fst x) = Some e /\ box_of (vrank v) b /\
          writes_element e (snd x) v q /\ forall y, in_box y b <-> y = q) /\
      (forall d x e q, In d ord -> nth_error vs d = Some x -> nth_error eqs (fst x) = Some e -> writes_element e (snd x) v q ->
         exists b, In (b, d) new /\ forall y, in_box y b <-> y = q).
Proof.
  intros eqs vs ord E SW SV V. rewrite Forall_forall in E, SW, SV, V. induction ord as [|d ord IH]; intros Hi wm0.
  - exists wm0. split; [reflexivity|]. intros v. exists []. rewrite app_nil_r. split; [reflexivity|]. split; [intros b d []|intros d x e q []].
  - assert (Hd : d < length vs) by (assert (In d (seq 0 (length vs))) by (apply Hi; now left); rewrite in_seq in *; lia).
    destruct (nth_error vs d) as [x|] eqn:Ex; [|apply nth_error_None in Ex; lia].
    destruct (V x (nth_error_In _ _ Ex)) as (e & Ee & Ne & Hp). pose proof (nth_error_In _ _ Ee) as He.
    cbn [fold_res]. unfold scalar_mapWrite at 1. rewrite Ex. cbn [of_option bind]. rewrite Ee. cbn [of_option bind].
    destruct (access_with_property (fun a => Ok (af_isAffine (snd a))) (eq_writes e) Ne) as ([v0 f0] & Hw & Hin); [eauto|].
    unfold scalar_write. rewrite Hw. cbn [bind fst snd].
    destruct (single_image e v0 f0 (snd x) (E e He) (SV e He) (in_or_app _ _ _ (or_introl Hin)) Hp) as (u & q0 & Hu & Bu & Nu & Qu).
    rewrite Hu. cbn [bind]. assert (Hi' : incl ord (seq 0 (length vs))) by (intros y Hy; apply Hi; now right).
    destruct (IH Hi' (insert_writes v0 u d wm0)) as (wm & Hwm & W). exists wm. split; [assumption|]. intros v.
    destruct (W v) as (new & En & N1 & N2). rewrite insert_entries, <- app_assoc in En. eexists. split; [exact En|].
    unfold bs_of in Bu. rewrite Forall_forall in Bu.
    assert (Box : forall b, In b u -> forall y, in_box y b <-> y = q0).
    { intros b Hb y. split; intros Hy; [apply Qu; exists b; auto|]. destruct (bs_nonempty (vrank v0) [b]) as (z & b' & [<-|[]] & Hz); [repeat constructor; apply Bu; assumption|discriminate|].
      assert (z = q0) by (apply Qu; exists b; auto). congruence. }
    assert (Acc : accesses f0 (snd x) q0) by (exists u; split; [assumption|]; apply Qu; reflexivity).
    split.
    + intros b d' Hb. apply in_app_iff in Hb as [Hb|Hb].
      * destruct (Nat.eqb_spec v v0) as [->|_]; [|destruct Hb]. apply in_map_iff in Hb as (b' & Eb & Hb). injection Eb as <- <-.
        split; [now left|]. exists x, e, q0. split; [assumption|]. split; [assumption|]. split; [now apply Bu|]. split; [exists f0; auto|]. now apply Box.
      * destruct (N1 b d' Hb) as (Hd' & X). split; [now right|assumption].
    + intros d' x' e' q [<-|Hd'] Hx' He' Hwr.
      * rewrite Ex in Hx'. injection Hx' as <-. rewrite Ee in He'. injection He' as <-. destruct Hwr as (f & Hf & Ha).
        destruct (SW e He v f v0 f0 (snd x) q Hf Hin Hp) as (-> & Eq). apply Eq in Ha. destruct Ha as (u' & Hu' & Hq). rewrite Hu in Hu'. injection Hu' as <-.
        apply Qu in Hq. subst q0. destruct u as [|b u]; [congruence|]. exists b. split; [|apply Box; now left]. rewrite Nat.eqb_refl. apply in_or_app. left. now left.
      * destruct (N2 d' x' e' q Hd' Hx' He' Hwr) as (b & Hb & Hq). exists b. split; [|assumption]. apply in_or_app. now right.
Qed.

Lemma scalar_read_edges_in : forall wm d v s q a b, (forall x, in_boxes x s <-> x = q) -> bs_of (vrank v) s ->
  (forall x, In x (map_entries wm v) -> box_of (vrank v) (fst x) /\ exists q', forall y, in_box y (fst x) <-> y = q') ->
  (In (a, b) (scalar_read_edges wm d v s) <-> a = d /\ exists x, In x (map_entries wm v) /\ snd x = b /\ in_box q (fst x)).
Proof.
  intros wm d v s q a b Q S B. unfold scalar_read_edges. unfold map_entries in *. split.
  - destruct (map_find v wm) as [t|]; [|intros []]. intros H. apply in_flat_map in H as (r & Hr & H). apply in_map_iff in H as (x & Ex & H).
    injection Ex as -> <-. apply filter_In in H as (H & Ho). apply filter_In in H as (Hx & _). split; [reflexivity|]. exists x. split; [assumption|]. split; [reflexivity|].
    rewrite bs_eq_spec in Ho. destruct (proj1 (Ho q) (proj2 (Q q) eq_refl)) as (b' & [<-|[]] & Hb). assumption.
  - intros (-> & x & Hx & <- & Hq). destruct (map_find v wm) as [t|]; [|destruct Hx]. destruct (B x Hx) as (Bx & q' & Q').
    destruct (proj2 (Q q) eq_refl) as (r & Hr & Hqr). apply in_flat_map. exists r. split; [assumption|]. apply in_map_iff. exists x. split; [reflexivity|].
    apply filter_In. split.
    + apply filter_In. split; [assumption|]. unfold bs_of in S. rewrite Forall_forall in S. destruct (S r Hr) as ((_ & S1) & S2), Bx as ((_ & B1) & B2).
      apply mdrange_overlaps_spec; try assumption; [congruence|]. eauto.
    + apply bs_eq_spec. intros y. rewrite Q. assert (q = q') by (now apply Q'). subst q'. split.
      * intros ->. exists (fst x). split; [now left|assumption].
      * intros (b' & [<-|[]] & Hy). now apply Q'.
Qed.

Lemma scalar_graph_ok : forall eqs vs ord, Forall (equation_ok m vrank) eqs -> Forall same_writes eqs -> Forall single_valued eqs ->
  Forall (scalar_vertex eqs) vs -> Permutation ord (seq 0 (length vs)) ->
  exists g, scalar_graph eqs vs ord = Ok g /\
    forall a b, In (a, b) g <-> exists xa xb ea eb v q, nth_error vs a = Some xa /\ nth_error vs b = Some xb /\
      nth_error eqs (fst xa) = Some ea /\ nth_error eqs (fst xb) = Some eb /\
      reads_element ea (snd xa) v q /\ writes_element eb (snd xb) v q.
Proof.
  intros eqs vs ord E SW SV V Po. unfold scalar_graph.
  destruct (scalar_writes_ok eqs vs ord E SW SV V) with (wm0 := @nil (nat * list wentry)) as (wm & Hw & W).
  { intros x Hx. exact (Permutation_in _ Po Hx). }
  rewrite Hw. cbn [bind]. rewrite Forall_forall in E, SV, V.
  assert (B : forall v x, In x (map_entries wm v) -> box_of (vrank v) (fst x) /\ exists q', forall y, in_box y (fst x) <-> y = q').
  { intros v [b d] Hx. destruct (W v) as (new & En & N1 & _). rewrite En in Hx. cbn in Hx. destruct (N1 b d Hx) as (_ & x & e & q & _ & _ & Bb & _ & Q). eauto. }
  assert (Q : forall a xa, nth_error vs a = Some xa -> exists es, scalar_edges eqs vs wm a = Ok es /\
    forall a' b, In (a', b) es <-> a' = a /\ exists xb ea eb v q, nth_error vs b = Some xb /\
      nth_error eqs (fst xa) = Some ea /\ nth_error eqs (fst xb) = Some eb /\ reads_element ea (snd xa) v q /\ writes_element eb (snd xb) v q).
  { intros a xa Ea. destruct (V xa (nth_error_In _ _ Ea)) as (e & Ee & Ne & Hp). pose proof (nth_error_In _ _ Ee) as He.
    unfold scalar_edges. rewrite Ea. cbn [of_option bind]. rewrite Ee. cbn [of_option bind].
    assert (One : forall r, In r (eq_reads e) -> exists s q, af_map_point (snd r) (snd xa) = Ok s /\ bs_of (vrank (fst r)) s /\ (forall y, in_boxes y s <-> y = q)).
    { intros [v f] Hr. destruct (single_image e v f (snd xa) (E e He) (SV e He) (in_or_app _ _ _ (or_intror Hr)) Hp) as (s & q & Hs & Bs & _ & Qs). eauto 6. }
    destruct (map_res_total _ _ (fun r => s <- af_map_point (snd r) (snd xa);; Ok (scalar_read_edges wm a (fst r) s)) (eq_reads e)) as (l & Hl).
    { intros r Hr. destruct (One r Hr) as (s & q & Hs & _). rewrite Hs. cbn. eauto. }
    rewrite Hl. cbn [bind]. exists (concat l). split; [reflexivity|]. intros a' b. rewrite in_concat. split.
    - intros (es & Hes & Hin). destruct (map_res_in _ _ _ _ _ es Hl Hes) as ([v f] & Hr & H). destruct (One (v, f) Hr) as (s & q & Hs & Bs & Qs). cbn [fst snd] in *.
      rewrite Hs in H. injection H as <-. apply (scalar_read_edges_in wm a v s q a' b Qs Bs (B v)) in Hin as (-> & [bx d] & Hx & <- & Hq). split; [reflexivity|].
      destruct (W v) as (new & En & N1 & _). rewrite En in Hx. cbn in Hx. destruct (N1 bx d Hx) as (_ & xb & eb & q' & Hxb & Heb & _ & Hwr & Q'). cbn [fst snd] in *.
      assert (q = q') by (now apply Q'). subst q'. exists xb, e, eb, v, q. split; [assumption|]. split; [reflexivity|]. split; [assumption|]. split; [|assumption].
      exists f. split; [assumption|]. exists s. split; [assumption|]. now apply Qs.
    - intros (-> & xb & ea & eb & v & q & Hxb & Hea & Heb & (f & Hf & s & Hs & Hq) & Hwr). injection Hea as <-.
      destruct (map_res_in2 _ _ _ _ _ (v, f) Hl Hf) as (es & Hes & H). cbn [fst snd] in H. destruct (One (v, f) Hf) as (s' & q' & Hs' & Bs & Qs). cbn [fst snd] in *.
      rewrite Hs in Hs'. injection Hs' as <-. assert (q = q') by (now apply Qs). subst q'. rewrite Hs in H. injection H as <-.
      eexists. split; [exact Hes|]. apply (scalar_read_edges_in wm a v s q a b Qs Bs (B v)). split; [reflexivity|].
      destruct (W v) as (new & En & _ & N2). cbn in En. destruct (N2 b xb eb q) as (bx & Hb & Q'); try assumption.
      { apply (Permutation_in _ (Permutation_sym Po)), in_seq. assert (b < length vs) by (apply nth_error_Some; congruence). lia. }
      exists (bx, b). rewrite En. split; [assumption|]. split; [reflexivity|]. now apply Q'. }
  destruct (map_res_total _ _ (scalar_edges eqs vs wm) (seq 0 (length vs))) as (l & Hl).
  { intros a Ha. apply in_seq in Ha. destruct (nth_error vs a) as [xa|] eqn:Ea; [|apply nth_error_None in Ea; lia]. destruct (Q a xa Ea) as (es & Hes & _). eauto. }
  rewrite Hl. cbn [bind]. exists (concat l). split; [reflexivity|]. intros a b. rewrite in_concat. split.
  - intros (es & Hes & Hin). destruct (map_res_in _ _ _ _ _ es Hl Hes) as (a' & Ha & H). apply in_seq in Ha.
    destruct (nth_error vs a') as [xa|] eqn:Ea; [|apply nth_error_None in Ea; lia]. destruct (Q a' xa Ea) as (es' & Hes' & X). rewrite H in Hes'. injection Hes' as <-.
    apply X in Hin. destruct Hin as (Eaa & xb & ea & eb & v & q & Hx). rewrite Eaa. exists xa, xb, ea, eb, v, q. split; [assumption|]. intuition.
  - intros (xa & xb & ea & eb & v & q & Ea & Hx). destruct (Q a xa Ea) as (es & Hes & X).
    destruct (map_res_in2 _ _ _ _ _ a Hl) as (es' & Hin & Hes'); [apply in_seq; assert (a < length vs) by (apply nth_error_Some; congruence); lia|].
    rewrite Hes in Hes'. injection Hes' as <-. exists es. split; [assumption|]. apply X. split; [reflexivity|]. exists xb, ea, eb, v, q. intuition.
Qed.

End Graphs.

(** * Affine equations *)

Lemma affine_built : forall m n k f, affine_access m n k f -> built_access m n k f.
Proof.
  intros m n k f H. destruct H as [n es f D _ _ H|n rs f P _ H]; [now apply built_from_map|]. apply built_from_accesses; [|assumption].
  eapply Forall_impl; [|exact P]. apply plain_below.
Qed.
Lemma affine_equation : forall m vrank e, mlir_ok m -> 1 <= eq_rank e -> bs_of (eq_rank e) (eq_space e) ->
  (forall v f, In (v, f) (eq_writes e ++ eq_reads e) -> 1 <= vrank v /\ affine_access m (eq_rank e) (vrank v) f) ->
  equation_ok m vrank e /\ single_valued e /\ affine_self_reads m vrank e.
Proof.
  intros m vrank e M H1 S A.
  assert (D : forall v f p, In (v, f) (eq_writes e ++ eq_reads e) -> in_boxes p (eq_space e) ->
    exists q, maps_to f p q /\ exists u, af_map_point f p = Ok u /\ bs_of (vrank v) u).
  { intros v f p Hin Hp. destruct (A v f Hin) as (Hk & Hf). apply (affine_access_plain m M) in Hf.
    pose proof (bs_of_length _ _ p S Hp) as L. destruct (plain_maps _ _ f p Hf) as (q & Lq & Vq & Mq); [lia|]. exists q. split; [assumption|].
    rewrite (fval_point _ _ f p q Hf) by (lia || assumption). eexists. split; [reflexivity|]. constructor; [|constructor]. now apply of_point_box. }
  split; [|split].
  - constructor; auto.
    + intros v f Hin. destruct (A v f Hin) as (Hk & Hf). split; [assumption|]. now apply affine_built.
    + intros v f p Hin Hp. destruct (D v f p Hin Hp) as (q & _ & X). exact X.
  - intros v f p Hin Hp. destruct (D v f p Hin Hp) as (q & X & _). eauto.
  - intros v f g _ Hg. apply A. apply in_or_app. now right.
Qed.

Lemma filter_res_in : forall A (f : A -> res bool) l r, filter_res f l = Ok r ->
  (forall x, In x r <-> In x l /\ f x = Ok true) /\ forall x, In x l -> exists b, f x = Ok b.
Proof.
  intros A f l r H.
  assert (T : forall x, In x l -> exists b, f x = Ok b).
  { revert r H. induction l as [|a l IH]; intros r H x Hx; [destruct Hx|]. cbn in H. apply bind_ok in H as (b & Hb & H). apply bind_ok in H as (r' & Hr' & H).
    destruct Hx as [<-|Hx]; [eauto|]. exact (IH r' Hr' x Hx). }
  destruct (filter_res_spec A f l T) as (r' & Hr' & X). rewrite H in Hr'. injection Hr' as <-. auto.
Qed.
