(** Proofs on the passes that cut equations. *)
From Coq Require Import ZArith List Bool Arith Lia Permutation.
From Verif Require Import RangeModel MDRangeModel MDRangeProofs BoxListProofs BoxSetModel BoxSetProofs Spec Result AccessModel EqModel EqSpec EqSubstProofs.
Import ListNotations.
Open Scope Z_scope.

(** * Cuts *)
Lemma once_nth : forall p l, once p l <->
  exists n s, nth_error l n = Some s /\ in_boxes p s /\
    forall n' s', nth_error l n' = Some s' -> in_boxes p s' -> n' = n.
Proof.
  intros p l. split.
  - intros (l1 & s & l2 & -> & H & D). exists (length l1), s. split.
    { rewrite nth_error_app2, Nat.sub_diag; auto. }
    split; auto. intros n' s' H' I'. destruct (lt_eq_lt_dec n' (length l1)) as [[L|L]|L]; auto; exfalso.
    + apply (D s'); auto. rewrite nth_error_app1 in H'; auto. apply in_app_iff. left.
      eapply nth_error_In; eauto.
    + apply (D s'); auto. rewrite nth_error_app2 in H'; [|lia]. apply in_app_iff. right.
      destruct (n' - length l1)%nat as [|k] eqn:E; [lia|]. cbn in H'. eapply nth_error_In; eauto.
  - intros (n & s & H & I & D). destruct (nth_error_split l n H) as (l1 & l2 & -> & L).
    exists l1, s, l2. split; auto. split; auto. intros t Ht It. apply in_app_iff in Ht.
    destruct Ht as [Ht|Ht].
    + apply In_nth_error in Ht. destruct Ht as [k Hk].
      assert (k < length l1)%nat by (apply nth_error_Some; congruence).
      assert (k = n); [|lia]. apply (D k t); auto. rewrite nth_error_app1; auto.
    + apply In_nth_error in Ht. destruct Ht as [k Hk].
      assert ((S (length l1) + k)%nat = n); [|lia]. apply (D _ t); auto.
      rewrite nth_error_app2; [|lia]. replace (S (length l1) + k - length l1)%nat with (S k) by lia. auto.
Qed.

Lemma cuts_self : forall s, cuts [s] s.
Proof.
  intros s. split.
  - intros p H. exists [], s, []. split; [auto|]. split; [auto|]. intros t [].
  - intros p t [<-|[]]; auto.
Qed.

Lemma cuts_flat : forall (g : part -> bset) (h : part -> list part) ps s,
  cuts (map g ps) s -> (forall p, In p ps -> cuts (map g (h p)) (g p)) ->
  cuts (map g (flat_map h ps)) s.
Proof.
  intros g h ps s [C1 C2] H. split.
  - intros p Hp. destruct (C1 p Hp) as (l1 & t & l2 & E & It & D).
    apply map_eq_app in E. destruct E as (ps1 & ps2 & -> & <- & E).
    destruct ps2 as [|q ps2]; [discriminate|]. cbn in E. injection E as <- <-.
    destruct (H q) as [H1 H2]. { apply in_app_iff. cbn. auto. }
    destruct (H1 p It) as (m1 & u & m2 & E & Iu & Du).
    rewrite flat_map_app, map_app. cbn [flat_map]. rewrite map_app, E.
    exists (map g (flat_map h ps1) ++ m1), u, (m2 ++ map g (flat_map h ps2)).
    split. { rewrite <- !app_assoc. cbn. rewrite <- ?app_assoc. auto. }
    split; auto. intros w Hw Iw. rewrite !in_app_iff in Hw.
    assert (K : forall qs, (forall q', In q' qs -> In q' (ps1 ++ ps2)) -> In w (map g (flat_map h qs)) -> False).
    { intros qs Hq Hw'. apply in_map_iff in Hw'. destruct Hw' as (x & <- & Hx).
      apply in_flat_map in Hx. destruct Hx as (q' & Hq' & Hx).
      destruct (H q') as [_ H2']. { pose proof (Hq q' Hq') as K. rewrite in_app_iff in *. cbn. tauto. }
      apply (D (g q')). { rewrite <- map_app. apply in_map. auto. }
      apply (H2' p (g x)); auto. apply in_map. auto. }
    destruct Hw as [[Hw|Hw]|[Hw|Hw]].
    + eapply (K ps1); eauto. intros. apply in_app_iff. auto.
    + eapply (Du w); eauto. apply in_app_iff. auto.
    + eapply (Du w); eauto. apply in_app_iff. auto.
    + eapply (K ps2); eauto. intros. apply in_app_iff. auto.
  - intros p t Ht Ip. apply in_map_iff in Ht. destruct Ht as (x & <- & Hx).
    apply in_flat_map in Hx. destruct Hx as (q & Hq & Hx).
    apply (C2 p (g q)); [apply in_map; auto|]. eapply (proj2 (H q Hq)); [apply in_map; exact Hx|auto].
Qed.

Lemma cut_eq_cuts : forall rk r inv accs p, bs_of r inv -> bs_of r (p_eq p) ->
  cuts (map p_eq (cut_eq rk inv accs p)) (p_eq p) /\ Forall (fun q => bs_of r (p_eq q)) (cut_eq rk inv accs p).
Proof.
  intros rk r inv accs p Hi Hp. unfold cut_eq.
  destruct (bs_intersect_spec r inv (p_eq p) Hi Hp) as [XB XS].
  destruct (bs_diff_spec r _ (p_eq p) Hp XB) as [DB DS].
  destruct (bs_empty (bs_intersect inv (p_eq p))) eqn:E.
  - split; [apply cuts_self|auto].
  - destruct (bs_empty (bs_diff (p_eq p) (bs_intersect inv (p_eq p)))) eqn:E2; cbn; split; auto.
    + split.
      * intros q Hq. exists [], (bs_intersect inv (p_eq p)), []. split; [auto|]. split; [|intros t []].
        destruct (bs_mem (bs_intersect inv (p_eq p)) q) eqn:Q; [apply bs_mem_spec; auto|].
        apply bs_mem_false in Q. exfalso. apply (proj1 (bs_empty_spec r _ DB) E2 q). apply DS. auto.
      * intros q t [<-|[]] Hq. apply XS in Hq. tauto.
    + split.
      * intros q Hq. destruct (bs_mem (bs_intersect inv (p_eq p)) q) eqn:Q.
        -- apply bs_mem_spec in Q. exists [], (bs_intersect inv (p_eq p)), [bs_diff (p_eq p) (bs_intersect inv (p_eq p))].
           split; [auto|]. split; [auto|]. intros t [<-|[]] Ht. apply DS in Ht. tauto.
        -- apply bs_mem_false in Q. exists [bs_intersect inv (p_eq p)], (bs_diff (p_eq p) (bs_intersect inv (p_eq p))), [].
           split; [auto|]. split; [apply DS; auto|]. intros t [<-|[]] Ht. auto.
      * intros q t [<-|[<-|[]]] Hq; [apply XS in Hq|apply DS in Hq]; tauto.
Qed.

Lemma joint_preimage_bs : forall rk idx vp, bs_of rk idx -> (1 <= rk)%nat -> bs_of rk (joint_preimage rk idx vp).
Proof.
  intros rk idx vp H L. unfold joint_preimage.
  assert (G : forall accs s, bs_of rk s ->
    bs_of rk (fold_left (fun s a => bs_intersect s (af_preimage rk (a_fun a) (p_var vp) idx)) accs s)).
  { induction accs as [|a accs IH]; intros s Hs; cbn; auto. apply IH.
    apply (bs_intersect_spec rk); auto. apply preimage_bs_of; auto. }
  apply G; auto.
Qed.

Lemma eq_parts_cuts : forall i vps, let rk := t_rank (i_tmpl i) in
  bs_of rk (i_idx i) -> (1 <= rk)%nat ->
  cuts (map p_eq (eq_parts i vps)) (i_idx i) /\ Forall (fun q => bs_of rk (p_eq q)) (eq_parts i vps).
Proof.
  intros i vps rk H L. unfold eq_parts. fold rk.
  assert (G : forall vps ps, cuts (map p_eq ps) (i_idx i) -> Forall (fun q => bs_of rk (p_eq q)) ps ->
    let ps' := fold_left (fun ps vp => flat_map (cut_eq rk (joint_preimage rk (i_idx i) vp) (p_accs vp)) ps) vps ps in
    cuts (map p_eq ps') (i_idx i) /\ Forall (fun q => bs_of rk (p_eq q)) ps').
  { clear vps. induction vps as [|vp vps IH]; intros ps C F; cbn; auto. apply IH.
    - apply cuts_flat; auto. intros p Hp. rewrite Forall_forall in F.
      apply (cut_eq_cuts rk rk); auto. apply joint_preimage_bs; auto.
    - rewrite Forall_forall in *. intros q Hq. apply in_flat_map in Hq. destruct Hq as (p & Hp & Hq).
      assert (K := proj2 (cut_eq_cuts rk rk (joint_preimage rk (i_idx i) vp) (p_accs vp) p
        (joint_preimage_bs rk (i_idx i) vp H L) (F p Hp))).
      rewrite Forall_forall in K. auto. }
  apply G; [apply cuts_self|]. constructor; auto.
Qed.

Theorem access_split_iterations : forall checks i is, (1 <= t_rank (i_tmpl i))%nat -> wf_inst i ->
  access_split checks i = Ok is ->
  cuts (map i_idx is) (i_idx i) /\ Forall (fun n => i_tmpl n = i_tmpl i) is.
Proof.
  intros checks i is L W H. unfold access_split in H.
  assert (S : cuts (map i_idx [i]) (i_idx i) /\ Forall (fun n => i_tmpl n = i_tmpl i) [i]).
  { split; [apply cuts_self|auto]. }
  assert (B : bs_of (t_rank (i_tmpl i)) (i_idx i)).
  { unfold wf_inst in W. destruct (t_rank (i_tmpl i)); [lia|apply W]. }
  destruct (bs_empty (i_idx i)); [injection H as <-; auto|].
  destruct (i_match i) as [[v m]|]; [|injection H as <-; auto].
  destruct (length (match_accesses i v m) <=? 1)%nat; [injection H as <-; auto|].
  apply bind_ok in H. destruct H as (u & _ & H).
  set (ps := eq_parts i (var_parts i m (match_accesses i v m))) in *.
  destruct (eq_parts_cuts i (var_parts i m (match_accesses i v m)) B L) as [C F]. fold ps in C, F.
  assert (G : forall r, (u0 <- assert_ok (negb checks || forallb (fun p => negb (bs_empty (p_eq p)) &&
                     negb (bs_empty (p_var p)) &&
                     negb (match p_accs p with [] => true | _ => false end)) ps) ;;
              Ok (map (fun p => mkInst (i_tmpl i) (p_eq p) (Some (v, p_var p))) ps)) = Ok r ->
    cuts (map i_idx r) (i_idx i) /\ Forall (fun n => i_tmpl n = i_tmpl i) r).
  { intros r G. apply bind_ok in G. destruct G as (u' & _ & G). injection G as <-.
    rewrite map_map. cbn. split; auto. apply Forall_forall. intros n Hn. apply in_map_iff in Hn.
    destruct Hn as (p & <- & _). auto. }
  destruct ps as [|p [|p2 ps']]; [apply G; auto|injection H as <-; auto|apply G; auto].
Qed.

Lemma cuts_solutions : forall M i is, (1 <= t_rank (i_tmpl i))%nat ->
  cuts (map i_idx is) (i_idx i) -> Forall (fun n => i_tmpl n = i_tmpl i) is -> same_solutions M [i] is.
Proof.
  intros M i is L [C1 C2] T st. unfold solution. rewrite !Forall_forall in *.
  assert (IT : forall n p, t_rank (i_tmpl n) = t_rank (i_tmpl i) -> (In p (iterations n) <-> in_boxes p (i_idx n))).
  { intros n p E. unfold iterations. rewrite E. destruct (t_rank (i_tmpl i)); [lia|]. apply in_bs_points. }
  split.
  - intros H n Hn p Hp. rewrite (T n Hn). apply (H i); [cbn; auto|]. apply IT; auto.
    apply IT in Hp; [|rewrite (T n Hn); auto]. apply (C2 p (i_idx n)); auto. apply in_map. auto.
  - intros H n [<-|[]] p Hp. apply IT in Hp; auto.
    destruct (C1 p Hp) as (l1 & s & l2 & E & Is & _).
    assert (K : In s (map i_idx is)) by (rewrite E; apply in_app_iff; cbn; auto).
    apply in_map_iff in K. destruct K as (n & <- & Hn). rewrite <- (T n Hn). apply (H n Hn).
    apply IT; auto. rewrite (T n Hn). auto.
Qed.

(** * The match of the parts *)
Lemma af_map_exact : forall rk f s q, (1 <= rk)%nat -> bs_of rk s -> f <> [] ->
  (in_boxes q (af_map rk f s) <-> reaches f s q).
Proof.
  intros rk f s q L B F. unfold reaches. split.
  - intros H. destruct (af_map_elem rk f s q H) as [(C & _ & K)|K]; auto.
    unfold af_map in H. rewrite C in H. destruct s as [|b s].
    + cbn in H. destruct rk; [lia|]. cbn in H. destruct H as (? & [] & _).
    + destruct (bs_nonempty rk (b :: s) B) as [p Hp]; [congruence|]. eauto.
  - intros (p & Hp & ->). apply af_map_reach; auto.
Qed.

Lemma af_map_bs_of : forall rk f s, f <> [] -> bs_of (length f) (af_map rk f s).
Proof.
  intros rk f s F. assert (L : (1 <= length f)%nat) by (destruct f; [congruence|cbn; lia]).
  unfold af_map. destruct (af_const f).
  - destruct (bs_empty s && negb (Nat.eqb rk 0)); [constructor|]. destruct f as [|x f]; [constructor|].
    constructor; [|constructor]. apply of_point_box; auto. unfold af_at. rewrite map_length. auto.
  - unfold bs_of_points. apply Forall_forall. intros b Hb. apply in_map_iff in Hb. destruct Hb as (p & <- & Hp).
    apply in_map_iff in Hp. destruct Hp as (e & <- & _). apply of_point_box; auto. unfold af_at. rewrite map_length. auto.
Qed.

Section Match.
Variables (i : inst) (v : nat) (m : bset) (k : nat) (a0 : access).
Let rk := t_rank (i_tmpl i).
Let R (a : access) : bset := af_map rk (a_fun a) (i_idx i).
Hypothesis L : (1 <= rk)%nat.
Hypothesis LK : (1 <= k)%nat.
Hypothesis BI : bs_of rk (i_idx i).
Hypothesis BM : bs_of k m.
Variable accs : list access.
Hypothesis AK : forall a, In a accs -> length (a_fun a) = k.
Hypothesis AM : forall a q, In a accs -> in_boxes q (R a) -> in_boxes q m.
Hypothesis A0 : In a0 accs.
Hypothesis M0 : forall q, in_boxes q m <-> reaches (a_fun a0) (i_idx i) q.

Lemma acc_nonempty : forall a, In a accs -> a_fun a <> [].
Proof. intros a Ha E. apply AK in Ha. rewrite E in Ha. cbn in Ha. lia. Qed.
Lemma R_spec : forall a q, In a accs -> (in_boxes q (R a) <-> reaches (a_fun a) (i_idx i) q).
Proof. intros a q Ha. apply af_map_exact; auto. apply acc_nonempty; auto. Qed.
Lemma R_bs : forall a, In a accs -> bs_of k (R a).
Proof. intros a Ha. rewrite <- (AK a Ha). apply af_map_bs_of, acc_nonempty; auto. Qed.

(** The element sets after the accesses of [done]. *)
Record atoms (done : list access) (ps : list part) : Prop := mkAtoms {
  at_cuts : cuts (map p_var ps) m;
  at_box : forall p, In p ps -> bs_of k (p_var p) /\ p_var p <> [];
  at_accs : forall p a, In p ps -> In a (p_accs p) -> In a done /\ forall q, in_boxes q (p_var p) -> in_boxes q (R a);
  at_all : forall p a q, In p ps -> In a done -> in_boxes q (p_var p) -> in_boxes q (R a) -> In a (p_accs p);
  at_same : forall p q q', In p ps -> in_boxes q (p_var p) -> in_boxes q' m ->
    (forall b, In b done -> (in_boxes q (R b) <-> in_boxes q' (R b))) -> in_boxes q' (p_var p) }.

Lemma atoms_step : forall done ps a, In a accs -> atoms done ps ->
  atoms (done ++ [a]) (flat_map (cut_var (R a) a) ps).
Proof.
  intros done ps a Ha [C B AC AL SM]. pose proof (R_bs a Ha) as BR.
  assert (X : forall p, In p ps ->
    (bs_of k (bs_intersect (R a) (p_var p)) /\
     forall q, in_boxes q (bs_intersect (R a) (p_var p)) <-> in_boxes q (R a) /\ in_boxes q (p_var p)) /\
    (bs_of k (bs_diff (p_var p) (bs_intersect (R a) (p_var p))) /\
     forall q, in_boxes q (bs_diff (p_var p) (bs_intersect (R a) (p_var p))) <->
       in_boxes q (p_var p) /\ ~ in_boxes q (R a))).
  { intros p Hp. destruct (B p Hp) as [Bp _].
    destruct (bs_intersect_spec k _ _ BR Bp) as [XB XS]. split; [auto|].
    destruct (bs_diff_spec k _ _ Bp XB) as [DB DS]. split; [auto|]. intros q. rewrite DS, XS. tauto. }
  (* the three kinds of new parts *)
  assert (KD : forall n, In n (flat_map (cut_var (R a) a) ps) -> exists p, In p ps /\
    ((n = p /\ forall q, in_boxes q (p_var p) -> ~ in_boxes q (R a)) \/
     (p_accs n = p_accs p ++ [a] /\ bs_of k (p_var n) /\ p_var n <> [] /\
       forall q, in_boxes q (p_var n) <-> in_boxes q (R a) /\ in_boxes q (p_var p)) \/
     (p_accs n = p_accs p /\ bs_of k (p_var n) /\ p_var n <> [] /\
       forall q, in_boxes q (p_var n) <-> in_boxes q (p_var p) /\ ~ in_boxes q (R a)))).
  { intros n Hn. apply in_flat_map in Hn. destruct Hn as (p & Hp & Hn). exists p. split; auto.
    destruct (X p Hp) as [[XB XS] [DB DS]]. unfold cut_var in Hn.
    destruct (bs_empty (bs_intersect (R a) (p_var p))) eqn:E.
    - destruct Hn as [<-|[]]. left. split; auto. intros q Hq Hr.
      apply (proj1 (bs_empty_spec k _ XB) E q). apply XS. auto.
    - destruct Hn as [<-|Hn].
      + right. left. cbn. split; auto. split; auto. split; auto.
        intros Q. rewrite Q in E. discriminate.
      + destruct (bs_empty (bs_diff (p_var p) (bs_intersect (R a) (p_var p)))) eqn:E2; [destruct Hn|].
        destruct Hn as [<-|[]]. right. right. cbn. split; auto. split; auto. split; auto.
        intros Q. rewrite Q in E2. discriminate. }
  constructor.
  - apply cuts_flat; auto. intros p Hp. destruct (X p Hp) as [[XB XS] [DB DS]]. unfold cut_var.
    destruct (bs_empty (bs_intersect (R a) (p_var p))) eqn:E; [apply cuts_self|].
    destruct (bs_empty (bs_diff (p_var p) (bs_intersect (R a) (p_var p)))) eqn:E2; cbn; split.
    + intros q Hq. exists [], (bs_intersect (R a) (p_var p)), []. split; [auto|]. split; [|intros t []].
      apply XS. split; auto. destruct (bs_mem (R a) q) eqn:Q; [apply bs_mem_spec; auto|].
      apply bs_mem_false in Q. exfalso. apply (proj1 (bs_empty_spec k _ DB) E2 q). apply DS. auto.
    + intros q t [<-|[]] Hq. apply XS in Hq. tauto.
    + intros q Hq. destruct (bs_mem (R a) q) eqn:Q.
      * apply bs_mem_spec in Q. eexists [], _, [_]. split; [reflexivity|]. split; [apply XS; auto|].
        intros t [<-|[]] Ht. apply DS in Ht. tauto.
      * apply bs_mem_false in Q. eexists [_], _, []. split; [reflexivity|]. split; [apply DS; auto|].
        intros t [<-|[]] Ht. apply XS in Ht. tauto.
    + intros q t [<-|[<-|[]]] Hq; [apply XS in Hq|apply DS in Hq]; tauto.
  - intros n Hn. destruct (KD n Hn) as (p & Hp & [[-> _]|[(_ & K1 & K2 & _)|(_ & K1 & K2 & _)]]); auto.
  - intros n b Hn Hb. destruct (KD n Hn) as (p & Hp & [[-> _]|[(K & _ & _ & S)|(K & _ & _ & S)]]).
    + destruct (AC p b Hp Hb) as [D1 D2]. split; auto. apply in_app_iff. auto.
    + rewrite K in Hb. apply in_app_iff in Hb. destruct Hb as [Hb|[<-|[]]].
      * destruct (AC p b Hp Hb) as [D1 D2]. split; [apply in_app_iff; auto|]. intros q Hq. apply D2. apply S in Hq. tauto.
      * split; [apply in_app_iff; cbn; auto|]. intros q Hq. apply S in Hq. tauto.
    + rewrite K in Hb. destruct (AC p b Hp Hb) as [D1 D2]. split; [apply in_app_iff; auto|].
      intros q Hq. apply D2. apply S in Hq. tauto.
  - intros n b q Hn Hb Hq Hr. apply in_app_iff in Hb.
    destruct (KD n Hn) as (p & Hp & [[-> S]|[(K & _ & _ & S)|(K & _ & _ & S)]]).
    + destruct Hb as [Hb|[<-|[]]]; [eapply AL; eauto|]. exfalso. eapply S; eauto.
    + rewrite K. apply in_app_iff. apply S in Hq. destruct Hb as [Hb|[<-|[]]]; [|right; cbn; auto].
      left. eapply AL; eauto. tauto.
    + rewrite K. apply S in Hq. destruct Hb as [Hb|[<-|[]]]; [eapply AL; eauto; tauto|tauto].
  - intros n q q' Hn Hq Hm HS.
    assert (HD : forall b, In b done -> (in_boxes q (R b) <-> in_boxes q' (R b))).
    { intros b Hb. apply HS. apply in_app_iff. auto. }
    assert (HA : in_boxes q (R a) <-> in_boxes q' (R a)). { apply HS. apply in_app_iff. cbn. auto. }
    destruct (KD n Hn) as (p & Hp & [[-> S]|[(K & _ & _ & S)|(K & _ & _ & S)]]).
    + eapply SM; eauto.
    + apply S. apply S in Hq. split; [tauto|]. eapply (SM p q); eauto; tauto.
    + apply S. apply S in Hq. split; [|tauto]. eapply (SM p q); eauto; tauto.
Qed.

Lemma m_nonempty : i_idx i <> [] -> m <> [].
Proof.
  intros N E. destruct (bs_nonempty rk _ BI N) as [e He].
  assert (H : in_boxes (map (sub_at e) (a_fun a0)) m) by (apply M0; exists e; auto).
  rewrite E in H. destruct H as (? & [] & _).
Qed.

Lemma var_parts_atoms : i_idx i <> [] -> atoms accs (var_parts i m accs).
Proof.
  intros N. unfold var_parts. fold rk.
  assert (G : forall todo done ps, incl todo accs -> atoms done ps ->
    atoms (done ++ todo) (fold_left (fun ps a => flat_map (cut_var (af_map rk (a_fun a) (i_idx i)) a) ps) todo ps)).
  { induction todo as [|a todo IH]; intros done ps HI H; cbn; [rewrite app_nil_r; auto|].
    replace (done ++ a :: todo) with ((done ++ [a]) ++ todo) by (rewrite <- app_assoc; auto).
    apply IH; [intros x Hx; apply HI; cbn; auto|]. apply atoms_step; auto. apply HI. cbn. auto. }
  apply (G accs []); [apply incl_refl|]. constructor.
  - apply cuts_self.
  - intros p [<-|[]]. cbn. split; [auto|]. apply m_nonempty; auto.
  - intros p a [<-|[]] [].
  - intros p a q _ [].
  - intros p q q' [<-|[]] _ H _. auto.
Qed.

Hypothesis K : forall e b, in_boxes e (i_idx i) -> In b accs ->
  reaches (a_fun b) (i_idx i) (map (sub_at e) (a_fun a0)) ->
  forall c, In c accs ->
    (reaches (a_fun c) (i_idx i) (map (sub_at e) (a_fun b)) <->
     reaches (a_fun c) (i_idx i) (map (sub_at e) (a_fun a0))).

Lemma preimage_conv : forall a V e, In a accs -> V <> [] -> bs_of k V ->
  (forall q, in_boxes q V -> in_boxes q (R a)) ->
  in_boxes e (i_idx i) -> in_boxes (map (sub_at e) (a_fun a)) V ->
  in_boxes e (af_preimage rk (a_fun a) V (i_idx i)).
Proof.
  intros a V e Ha NV BV HV He Hq. unfold af_preimage. destruct (af_const (a_fun a)) eqn:C.
  - destruct V as [|b V']; [congruence|]. cbn [bs_empty andb].
    replace (bs_contains _ _) with true; auto. symmetry. apply bs_contains_spec. exact HV.
  - apply of_points_in. apply filter_In. split; [apply in_bs_points; auto|]. apply bs_mem_spec. auto.
Qed.

Lemma joint_preimage_spec : forall vps vp e, atoms accs vps -> In vp vps ->
  (in_boxes e (joint_preimage rk (i_idx i) vp) <->
   in_boxes e (i_idx i) /\ in_boxes (map (sub_at e) (a_fun a0)) (p_var vp)).
Proof.
  intros vps vp e [C B AC AL SM] Hvp. destruct (B vp Hvp) as [BV NV].
  destruct (bs_nonempty k _ BV NV) as [q0 Hq0].
  assert (Ha0 : In a0 (p_accs vp)).
  { apply (AL vp a0 q0); auto. apply R_spec; auto. apply M0. eapply (proj2 C); [apply in_map; exact Hvp|auto]. }
  assert (G : forall l s, incl l accs -> bs_of rk s -> (forall a, In a l -> forall q, in_boxes q (p_var vp) -> in_boxes q (R a)) ->
    (in_boxes e (fold_left (fun s a => bs_intersect s (af_preimage rk (a_fun a) (p_var vp) (i_idx i))) l s) <->
     in_boxes e s /\ forall a, In a l -> in_boxes e (i_idx i) /\ in_boxes (map (sub_at e) (a_fun a)) (p_var vp))).
  { induction l as [|a l IH]; intros s HI Bs HR; cbn [fold_left].
    - split; [intros H; split; [auto|intros a []]|tauto].
    - destruct (bs_intersect_spec rk s (af_preimage rk (a_fun a) (p_var vp) (i_idx i)) Bs) as [XB XS];
        [apply preimage_bs_of; auto|].
      rewrite IH; auto; [| |intros b Hb; apply HR; cbn; auto]. 2:{ intros b Hb. apply HI. cbn. auto. }
      rewrite XS.
      assert (PE : in_boxes e (af_preimage rk (a_fun a) (p_var vp) (i_idx i)) <->
         in_boxes e (i_idx i) /\ in_boxes (map (sub_at e) (a_fun a)) (p_var vp)).
      { split; [intros H; apply (preimage_elem rk); eauto|]. intros [H1 H2]. apply preimage_conv; auto.
        - apply HI. cbn. auto.
        - apply HR. cbn. auto. }
      rewrite PE. split.
      + intros [[H1 H2] H3]. split; auto. intros b [<-|Hb]; auto.
      + intros [H1 H2]. split; [split; auto; apply H2; cbn; auto|]. intros b Hb. apply H2. cbn. auto. }
  unfold joint_preimage. rewrite G; auto.
  - split.
    + intros [H1 H2]. split; [auto|]. apply H2. auto.
    + intros [H1 H2]. split; auto. intros a Ha. split; auto.
      destruct (AC vp a Hvp Ha) as [Ia Ra].
      assert (Re : reaches (a_fun a) (i_idx i) (map (sub_at e) (a_fun a0))) by (apply R_spec; auto).
      apply (SM vp _ (map (sub_at e) (a_fun a)) Hvp H2).
      * apply (AM a); auto. apply R_spec; auto. exists e. auto.
      * intros c Hc. rewrite !R_spec; auto. symmetry. apply (K e a); auto.
  - intros a Ha. apply (AC vp a Hvp Ha).
  - intros a Ha. apply (AC vp a Hvp Ha).
Qed.

Lemma joint_image_spec : forall l s q, in_boxes q (joint_image rk l s) <->
  exists a, In a l /\ in_boxes q (af_map rk (a_fun a) s).
Proof.
  intros l s q. unfold joint_image.
  assert (G : forall l t, in_boxes q (fold_left (fun s0 a => bs_union s0 (af_map rk (a_fun a) s)) l t) <->
    in_boxes q t \/ exists a, In a l /\ in_boxes q (af_map rk (a_fun a) s)).
  { clear l. induction l as [|a l IH]; intros t; cbn [fold_left].
    - split; [auto|]. intros [H|(a & [] & _)]. auto.
    - rewrite IH, bs_union_spec. split.
      + intros [[H|H]|(b & Hb & H)]; auto; right; [exists a|exists b]; cbn; auto.
      + intros [H|(b & [<-|Hb] & H)]; eauto. }
  rewrite G. split; [|auto]. intros [(b & [] & _)|H]; auto.
Qed.

(** The iteration sets after the element sets of [done]. *)
Definition kind (done : list part) (p : part) : Prop :=
  p_eq p <> [] /\ bs_of rk (p_eq p) /\
  ((p_accs p = [] /\ forall e, in_boxes e (p_eq p) <->
      in_boxes e (i_idx i) /\ forall vp, In vp done -> ~ in_boxes e (joint_preimage rk (i_idx i) vp)) \/
   (exists vp, In vp done /\ p_accs p = p_accs vp /\
      (forall e, in_boxes e (p_eq p) <-> in_boxes e (joint_preimage rk (i_idx i) vp)) /\
      p_var p = joint_image rk (p_accs vp) (p_eq p))).

Lemma apart : forall vps l1 vp l2 vp' e, atoms accs vps -> vps = l1 ++ vp :: l2 -> In vp' l1 ->
  in_boxes e (joint_preimage rk (i_idx i) vp) -> in_boxes e (joint_preimage rk (i_idx i) vp') -> False.
Proof.
  intros vps l1 vp l2 vp' e A E Hv H1 H2.
  assert (I1 : In vp vps) by (subst; apply in_app_iff; cbn; auto).
  assert (I2 : In vp' vps) by (subst; apply in_app_iff; auto).
  apply (joint_preimage_spec vps) in H1; auto. apply (joint_preimage_spec vps) in H2; auto.
  destruct H1 as [He H1], H2 as [_ H2]. destruct A as [C B AC AL SM].
  destruct (proj1 (once_nth _ _) (proj1 C _ (proj2 C _ _ (in_map p_var _ _ I1) H1))) as (n & s & _ & _ & U).
  apply In_nth_error in Hv. destruct Hv as [j Hj].
  assert (j < length l1)%nat by (apply nth_error_Some; congruence).
  assert (j = n).
  { apply (U j (p_var vp')); auto. rewrite E, map_app, nth_error_app1; [|rewrite map_length; auto].
    apply map_nth_error. auto. }
  assert (length l1 = n).
  { apply (U (length l1) (p_var vp)); auto. rewrite E, map_app, nth_error_app2; rewrite map_length; auto.
    rewrite Nat.sub_diag. auto. }
  lia.
Qed.

Lemma eq_parts_kind : forall vps p, i_idx i <> [] -> atoms accs vps ->
  In p (eq_parts i vps) -> kind vps p.
Proof.
  intros vps p0 NI A. unfold eq_parts. fold rk.
  assert (G : forall todo done ps, vps = done ++ todo -> (forall p, In p ps -> kind done p) ->
    forall p, In p (fold_left (fun ps vp => flat_map (cut_eq rk (joint_preimage rk (i_idx i) vp) (p_accs vp)) ps) todo ps) ->
      kind vps p).
  { induction todo as [|vp todo IH]; intros done ps E HP p Hp; cbn [fold_left] in Hp.
    - rewrite app_nil_r in E. subst. auto.
    - apply (IH (done ++ [vp]) _ ltac:(rewrite <- app_assoc; auto)) in Hp; auto. clear p Hp.
      intros n Hn. apply in_flat_map in Hn. destruct Hn as (p & Hp & Hn).
      destruct (HP p Hp) as (NE & BE & KD).
      set (P := joint_preimage rk (i_idx i) vp) in *.
      assert (BP : bs_of rk P) by (apply joint_preimage_bs; auto).
      destruct (bs_intersect_spec rk P (p_eq p) BP BE) as [XB XS].
      destruct (bs_diff_spec rk _ _ BE XB) as [DB DS].
      unfold cut_eq in Hn. destruct (bs_empty (bs_intersect P (p_eq p))) eqn:EX.
      + destruct Hn as [<-|[]]. split; [auto|]. split; [auto|].
        pose proof (proj1 (bs_empty_spec rk _ XB) EX) as EM.
        destruct KD as [[K1 K2]|(vp' & K1 & K2)].
        * left. split; auto. intros e. rewrite K2. split.
          -- intros [H1 H2]. split; auto. intros w Hw. apply in_app_iff in Hw. destruct Hw as [Hw|[<-|[]]]; auto.
             intros Q. apply (EM e). apply XS. split; auto. apply K2. auto.
          -- intros [H1 H2]. split; auto. intros w Hw. apply H2. apply in_app_iff. auto.
        * right. exists vp'. split; auto. apply in_app_iff. auto.
      + assert (NX : bs_intersect P (p_eq p) <> []) by (intros Q; rewrite Q in EX; discriminate).
        destruct KD as [[K1 K2]|(vp' & K1 & _ & K2 & _)].
        * destruct Hn as [<-|Hn].
          -- split; [auto|]. split; [auto|]. right. exists vp. cbn. split; [apply in_app_iff; cbn; auto|].
             rewrite K1. cbn. split; auto. split; auto. intros e. rewrite XS. split; [tauto|].
             intros H. split; auto. apply K2. split.
             ++ apply (joint_preimage_spec vps) in H; auto; [tauto|]. subst. apply in_app_iff. cbn. auto.
             ++ intros w Hw Q. eapply (apart vps done vp todo w e); eauto.
          -- destruct (bs_empty (bs_diff (p_eq p) (bs_intersect P (p_eq p)))) eqn:ED; [destruct Hn|].
             destruct Hn as [<-|[]]. split; [cbn; intros Q; rewrite Q in ED; discriminate|]. split; [auto|].
             left. cbn. split; auto. intros e. rewrite DS, XS, K2. split.
             ++ intros [[H1 H2] H3]. split; auto. intros w Hw. apply in_app_iff in Hw.
                destruct Hw as [Hw|[<-|[]]]; auto. 
             ++ intros [H1 H2]. split.
                ** split; auto. intros w Hw. apply H2. apply in_app_iff. auto.
                ** intros [Q _]. apply (H2 vp); auto. apply in_app_iff. cbn. auto.
        * exfalso. destruct (bs_nonempty rk _ XB NX) as [e He]. apply XS in He. destruct He as [H1 H2].
          apply K2 in H2. eapply (apart vps done vp todo vp' e); eauto. }
  intros Hp. apply (G vps [] [mkPart (i_idx i) [] []]); auto.
  intros p [<-|[]]. split; [auto|]. split; [auto|]. left. cbn. split; auto.
  intros e. split; [|tauto]. intros H. split; [auto|intros w []].
Qed.

(** Each iteration set goes with one element set. *)
Lemma eq_parts_match : forall vps p, i_idx i <> [] -> atoms accs vps -> In p (eq_parts i vps) ->
  p_eq p <> [] /\ p_accs p <> [] /\ exists vp, In vp vps /\ (forall q, in_boxes q (p_var p) <-> in_boxes q (p_var vp)) /\
    (forall e, in_boxes e (p_eq p) <-> in_boxes e (joint_preimage rk (i_idx i) vp)) /\
    (forall q, in_boxes q (p_var p) <-> reaches (a_fun a0) (p_eq p) q).
Proof.
  intros vps p NI A Hp. destruct (eq_parts_kind vps p NI A Hp) as (NE & BE & KD).
  split; auto. destruct KD as [[_ K2]|(vp & Hvp & K1 & K2 & K3)].
  - exfalso. destruct (bs_nonempty rk _ BE NE) as [e He]. apply K2 in He. destruct He as [He HN].
    pose proof (at_cuts _ _ A) as [C1 _].
    assert (Hm : in_boxes (map (sub_at e) (a_fun a0)) m) by (apply M0; exists e; auto).
    destruct (C1 _ Hm) as (l1 & s & l2 & E & Is & _).
    assert (Q : In s (map p_var vps)) by (rewrite E; apply in_app_iff; cbn; auto).
    apply in_map_iff in Q. destruct Q as (vp & <- & Hvp). apply (HN vp Hvp).
    apply (joint_preimage_spec vps); auto.
  - destruct (at_box _ _ A vp Hvp) as [BV NV]. destruct (bs_nonempty k _ BV NV) as [q0 Hq0].
    assert (VM : forall q, in_boxes q (p_var vp) -> in_boxes q m).
    { intros q. apply (proj2 (at_cuts _ _ A)). apply in_map. auto. }
    assert (Ha0 : In a0 (p_accs vp)).
    { apply (at_all _ _ A vp a0 q0); auto. apply R_spec; auto. apply M0. auto. }
    split. { rewrite K1. intros Q. rewrite Q in Ha0. destruct Ha0. }
    assert (R0 : forall q, in_boxes q (p_var vp) <-> reaches (a_fun a0) (p_eq p) q).
    { intros q. split.
      - intros H. destruct (proj1 (M0 q) (VM q H)) as (e & He & ->). exists e. split; auto.
        apply K2. apply (joint_preimage_spec vps); auto.
      - intros (e & He & ->). apply K2, (joint_preimage_spec vps) in He; auto. tauto. }
    assert (VV : forall q, in_boxes q (p_var p) <-> in_boxes q (p_var vp)).
    { intros q. rewrite K3, joint_image_spec. split.
      - intros (a & Ha & H). destruct (at_accs _ _ A vp a Hvp Ha) as [Ia Ra].
        apply af_map_exact in H; auto; [|apply acc_nonempty; auto]. destruct H as (e & He & ->).
        apply K2, (joint_preimage_spec vps) in He; auto. destruct He as [He H0].
        apply (at_same _ _ A vp _ (map (sub_at e) (a_fun a)) Hvp H0).
        + apply (AM a); auto. apply R_spec; auto. exists e. auto.
        + intros c Hc. rewrite !R_spec; auto. symmetry. apply (K e a); auto. apply R_spec; auto.
      - intros H. exists a0. split; auto. apply af_map_exact; auto; [apply acc_nonempty; auto|]. apply R0. auto. }
    exists vp. split; auto. split; auto. split; auto. intros q. rewrite VV. apply R0.
Qed.

Lemma eq_parts_var_cuts : forall vps, i_idx i <> [] -> atoms accs vps ->
  cuts (map p_var (eq_parts i vps)) m.
Proof.
  intros vps NI A. destruct (eq_parts_cuts i vps BI L) as [[C1 C2] _]. split.
  - intros q Hq. destruct (proj1 (M0 q) Hq) as (e & He & ->).
    destruct (proj1 (once_nth _ _) (C1 e He)) as (n & s & Hn & Is & U).
    apply once_nth. rewrite nth_error_map in Hn. destruct (nth_error (eq_parts i vps) n) as [p|] eqn:Ep; [|discriminate].
    injection Hn as <-. exists n, (p_var p). split; [rewrite nth_error_map, Ep; auto|].
    pose proof (nth_error_In _ _ Ep) as Hp.
    destruct (eq_parts_match vps p NI A Hp) as (_ & _ & vp & Hvp & V1 & V2 & V3).
    split. { apply V3. exists e. auto. }
    intros n' s' Hn' Is'. rewrite nth_error_map in Hn'.
    destruct (nth_error (eq_parts i vps) n') as [p'|] eqn:Ep'; [|discriminate]. injection Hn' as <-.
    pose proof (nth_error_In _ _ Ep') as Hp'.
    destruct (eq_parts_match vps p' NI A Hp') as (_ & _ & vp' & Hvp' & V1' & V2' & V3').
    apply (U n' (p_eq p')); [rewrite nth_error_map, Ep'; auto|].
    apply V2'. apply (joint_preimage_spec vps); auto. split; auto. apply V1'. auto.
  - intros q t Ht Hq. apply in_map_iff in Ht. destruct Ht as (p & <- & Hp).
    destruct (eq_parts_match vps p NI A Hp) as (_ & _ & vp & Hvp & V1 & _ & _).
    apply (proj2 (at_cuts _ _ A) q (p_var vp)); [apply in_map; auto|]. apply V1. auto.
Qed.

Lemma counted_once : forall (g : part -> bset) ps s, cuts (map g ps) s ->
  forallb (counted g ps) (bs_points s) = true.
Proof.
  intros g ps s [C _]. apply forallb_forall. intros p Hp. apply in_bs_points in Hp.
  destruct (C p Hp) as (l1 & t & l2 & E & It & D).
  apply map_eq_app in E. destruct E as (ps1 & ps2 & -> & <- & E).
  destruct ps2 as [|q ps2]; [discriminate|]. cbn in E. injection E as <- <-.
  assert (Z : forall qs, (forall x, In x qs -> In x (ps1 ++ ps2)) -> filter (fun x => bs_mem (g x) p) qs = []).
  { induction qs as [|x qs IH]; intros Hx; auto. cbn. destruct (bs_mem (g x) p) eqn:Q.
    - exfalso. apply bs_mem_spec in Q. apply (D (g x)); auto. rewrite <- map_app. apply in_map, Hx. cbn. auto.
    - apply IH. intros y Hy. apply Hx. cbn. auto. }
  unfold counted. rewrite filter_app. cbn. apply bs_mem_spec in It. rewrite It.
  rewrite (Z ps1), (Z ps2); auto; intros x Hx; apply in_app_iff; auto.
Qed.
Lemma cuts_eq : forall (g : part -> bset) ps s, cuts (map g ps) s -> bs_eq (flat_map g ps) s = true.
Proof.
  intros g ps s [C1 C2]. apply bs_eq_spec. intros p. split.
  - intros (b & Hb & Ip). apply in_flat_map in Hb. destruct Hb as (q & Hq & Hb).
    apply (C2 p (g q)); [apply in_map; auto|]. exists b. auto.
  - intros H. destruct (C1 p H) as (l1 & s0 & l2 & E & (b & Hb & Ip) & _).
    assert (Q : In s0 (map g ps)) by (rewrite E; apply in_app_iff; cbn; auto).
    apply in_map_iff in Q. destruct Q as (q & <- & Hq). exists b. split; auto. apply in_flat_map. eauto.
Qed.

Lemma parts_checked : forall vps, i_idx i <> [] -> atoms accs vps ->
  split_checks i m (eq_parts i vps) = true /\
  forallb (fun p => negb (bs_empty (p_eq p)) && negb (bs_empty (p_var p)) &&
                    negb (match p_accs p with [] => true | _ => false end)) (eq_parts i vps) = true.
Proof.
  intros vps NI A. destruct (eq_parts_cuts i vps BI L) as [C _]. pose proof (eq_parts_var_cuts vps NI A) as V.
  split.
  - unfold split_checks. rewrite !andb_true_iff. repeat split.
    + apply cuts_eq; auto.
    + apply cuts_eq; auto.
    + apply counted_once; auto.
    + apply counted_once; auto.
  - apply forallb_forall. intros p Hp. destruct (eq_parts_match vps p NI A Hp) as (N1 & N2 & vp & Hvp & V1 & V2 & _).
    destruct (at_box _ _ A vp Hvp) as [BV NV]. destruct (bs_nonempty k _ BV NV) as [q0 Hq0].
    apply V1 in Hq0. destruct (p_eq p), (p_var p), (p_accs p); auto; try congruence; destruct Hq0 as (? & [] & _).
Qed.
End Match.

Lemma within_spec : forall i v m k a, (1 <= t_rank (i_tmpl i))%nat -> bs_of (t_rank (i_tmpl i)) (i_idx i) ->
  arity (i_tmpl i) v k -> (In a (match_accesses i v m) <-> within i v m a).
Proof.
  intros i v m k a L B [LK AR]. unfold match_accesses, within. rewrite filter_In, andb_true_iff, Nat.eqb_eq.
  split.
  - intros (H1 & H2 & H3). split; auto. split; auto. intros q Hq.
    apply (proj1 (bs_contains_spec _ _) H3). apply af_map_exact; auto.
    intros E. pose proof (AR a H1 H2) as Q. rewrite E in Q. cbn in Q. lia.
  - intros (H1 & H2 & H3). split; auto. split; auto. apply bs_contains_spec. intros q Hq. apply H3.
    apply af_map_exact in Hq; auto.
    intros E. pose proof (AR a H1 H2) as Q. rewrite E in Q. cbn in Q. lia.
Qed.

Theorem access_split_match : forall checks i v m k a0,
  (1 <= t_rank (i_tmpl i))%nat -> wf_inst i -> arity (i_tmpl i) v k -> bs_of k m ->
  In a0 (t_accs (i_tmpl i)) -> a_var a0 = v -> matched_by (a_fun a0) i v m ->
  orderly i v m (a_fun a0) ->
  exists is ms, access_split checks i = Ok is /\
    Forall2 (fun n mn => matched_by (a_fun a0) n v mn) is ms /\ cuts ms m.
Proof.
  intros checks i v m k a0 L W AR BM H0 V0 [MI MS] OR.
  assert (B : bs_of (t_rank (i_tmpl i)) (i_idx i) /\ i_idx i <> []).
  { unfold wf_inst in W. destruct (t_rank (i_tmpl i)); [lia|apply W]. }
  destruct B as [B NI].
  assert (ONE : exists is ms, Ok [i] = Ok is /\
    Forall2 (fun n mn => matched_by (a_fun a0) n v mn) is ms /\ cuts ms m).
  { exists [i], [m]. split; auto. split; [|apply cuts_self]. constructor; [|constructor]. split; auto. }
  unfold access_split. rewrite MI.
  destruct (bs_empty (i_idx i)) eqn:E0; [destruct (i_idx i); [congruence|discriminate]|].
  destruct (length (match_accesses i v m) <=? 1)%nat; [exact ONE|].
  set (accs := match_accesses i v m).
  assert (WS : forall a, In a accs <-> within i v m a) by (intros a; eapply within_spec; eauto).
  assert (AK : forall a, In a accs -> length (a_fun a) = k).
  { intros a Ha. apply WS in Ha. apply AR; apply Ha. }
  assert (AM : forall a q, In a accs -> in_boxes q (af_map (t_rank (i_tmpl i)) (a_fun a) (i_idx i)) -> in_boxes q m).
  { intros a q Ha Hq. apply filter_In in Ha. destruct Ha as [_ Ha]. apply andb_true_iff in Ha.
    apply (proj1 (bs_contains_spec _ _) (proj2 Ha)). auto. }
  assert (A0 : In a0 accs). { apply WS. split; auto. split; auto. intros q Hq. apply MS. auto. }
  assert (K : forall e b, in_boxes e (i_idx i) -> In b accs ->
    reaches (a_fun b) (i_idx i) (map (sub_at e) (a_fun a0)) ->
    forall c, In c accs ->
      (reaches (a_fun c) (i_idx i) (map (sub_at e) (a_fun b)) <->
       reaches (a_fun c) (i_idx i) (map (sub_at e) (a_fun a0)))).
  { intros e b He Hb Hr c Hc. apply (OR e b); auto; apply WS; auto. }
  destruct AR as [LK AR].
  pose proof (var_parts_atoms i m k a0 L LK B BM accs AK MS NI) as AT.
  pose proof (parts_checked i m k a0 L LK B accs AK AM A0 MS K _ NI AT) as [P1 P2].
  pose proof (eq_parts_var_cuts i m k a0 L LK B accs AK AM A0 MS K _ NI AT) as VC.
  pose proof (fun p => eq_parts_match i m k a0 L LK B accs AK AM A0 MS K _ p NI AT) as PM.
  set (ps := eq_parts i (var_parts i m accs)) in *.
  rewrite P1, orb_true_r. cbn [assert_ok bind].
  assert (MANY : exists is ms, (u0 <- assert_ok (negb checks || forallb (fun p => negb (bs_empty (p_eq p)) &&
                     negb (bs_empty (p_var p)) &&
                     negb (match p_accs p with [] => true | _ => false end)) ps) ;;
              Ok (map (fun p => mkInst (i_tmpl i) (p_eq p) (Some (v, p_var p))) ps)) = Ok is /\
    Forall2 (fun n mn => matched_by (a_fun a0) n v mn) is ms /\ cuts ms m).
  { rewrite P2, orb_true_r. cbn [assert_ok bind].
    exists (map (fun p => mkInst (i_tmpl i) (p_eq p) (Some (v, p_var p))) ps), (map p_var ps).
    split; auto. split; auto. clear P1 P2 VC. induction ps as [|p ps IH]; cbn; constructor.
    - split; auto. cbn. destruct (PM p) as (_ & _ & vp & _ & _ & _ & Q); [cbn; auto|exact Q].
    - apply IH. intros p' Hp'. apply PM. cbn. auto. }
  destruct ps as [|p [|p2 ps']]; [exact MANY|exact ONE|exact MANY].
Qed.

(** * Restriction (setIndices) *)
Lemma write_within : forall i v m k a, (1 <= t_rank (i_tmpl i))%nat -> wf_inst i ->
  arity (i_tmpl i) v k -> i_match i = Some (v, m) ->
  (In a (write_accesses i) <-> within i v m a).
Proof.
  intros i v m k a L W [LK AR] MI.
  assert (B : bs_of (t_rank (i_tmpl i)) (i_idx i) /\ i_idx i <> []).
  { unfold wf_inst in W. destruct (t_rank (i_tmpl i)); [lia|apply W]. }
  destruct B as [B NI]. unfold write_accesses, writes_to, within. rewrite MI, filter_In, andb_true_iff, Nat.eqb_eq.
  assert (X : In a (t_accs (i_tmpl i)) -> a_var a = v -> a_fun a <> []).
  { intros H1 H2 E. pose proof (AR a H1 H2) as Q. rewrite E in Q. cbn in Q. lia. }
  split.
  - intros (H1 & H2 & H3). split; auto. split; auto. intros q Hq.
    apply (af_map_exact (t_rank (i_tmpl i)) (a_fun a) (i_idx i) q) in Hq; auto.
    apply orb_true_iff in H3. destruct H3 as [H3|H3].
    + apply andb_true_iff in H3. destruct H3 as [_ H3].
      destruct (af_map (t_rank (i_tmpl i)) (a_fun a) (i_idx i)); [|discriminate]. destruct Hq as (? & [] & _).
    + apply (proj1 (bs_contains_spec _ _) H3). auto.
  - intros (H1 & H2 & H3). split; auto. split; auto. apply orb_true_iff. right.
    apply bs_contains_spec. intros q Hq. apply H3. apply af_map_exact in Hq; auto.
Qed.

Lemma union_images : forall rk (l : list access) s t q,
  in_boxes q (fold_left (fun s0 w => bs_union s0 (af_map rk (a_fun w) s)) l t) <->
  in_boxes q t \/ exists a, In a l /\ in_boxes q (af_map rk (a_fun a) s).
Proof.
  intros rk l s. induction l as [|a l IH]; intros t q; cbn [fold_left].
  - split; [auto|]. intros [H|(a & [] & _)]. auto.
  - rewrite IH, bs_union_spec. split.
    + intros [[H|H]|(b & Hb & H)]; auto; right; [exists a|exists b]; cbn; auto.
    + intros [H|(b & [<-|Hb] & H)]; eauto.
Qed.

Theorem set_indices_match : forall i v m k a0 s, (1 <= t_rank (i_tmpl i))%nat -> wf_inst i ->
  arity (i_tmpl i) v k -> In a0 (t_accs (i_tmpl i)) -> a_var a0 = v -> matched_by (a_fun a0) i v m ->
  bs_of (t_rank (i_tmpl i)) s ->
  (forall p, in_boxes p s -> in_boxes p (i_idx i)) ->
  exists r mr, set_indices i s [] = Ok r /\ i_tmpl r = i_tmpl i /\
    (forall p, in_boxes p (i_idx r) <-> in_boxes p s) /\ i_match r = Some (v, mr) /\
    (forall q, in_boxes q mr <-> exists a, within i v m a /\ reaches (a_fun a) s q).
Proof.
  intros i v m k a0 s L W AR H0 V0 [MI MS] BS HS.
  assert (W0 : within i v m a0). { split; auto. split; auto. intros q Hq. apply MS. auto. }
  unfold set_indices. destruct (bs_eq s (i_idx i)) eqn:E.
  - pose proof (proj1 (bs_eq_spec _ _) E) as Q. exists i, m. split; auto. split; auto.
    split. { intros p. symmetry. apply Q. } split; auto. intros q. split.
    + intros H. exists a0. split; auto. apply MS in H. destruct H as (p & Hp & ->). exists p. split; auto. apply Q; auto.
    + intros (a & Wa & p & Hp & ->). apply Wa. exists p. split; auto.
  - rewrite MI.
    assert (WS : forall a, In a (write_accesses i) <-> within i v m a) by (intros a; eapply write_within; eauto).
    destruct (write_accesses i) as [|w ws] eqn:EW; [exfalso; apply (WS a0); auto|].
    cbn [negb assert_ok bind].
    eexists _, _. split; [reflexivity|]. cbn [i_tmpl i_idx i_match]. split; auto. split; [tauto|]. split; [reflexivity|].
    intros q. rewrite union_images. destruct AR as [LK AR].
    assert (X : forall a, within i v m a -> a_fun a <> []).
    { intros a (H1 & H2 & _) E'. pose proof (AR a H1 H2) as Q. rewrite E' in Q. cbn in Q. lia. }
    split.
    + intros [(? & [] & _)|(a & Ha & H)]. apply WS in Ha. exists a. split; auto.
      apply (af_map_exact (t_rank (i_tmpl i))) in H; auto.
    + intros (a & Ha & H). right. exists a. split; [apply WS; auto|]. apply af_map_exact; auto.
Qed.

Theorem set_indices_given : forall i s, set_indices i s (write_accesses i) = set_indices i s [].
Proof.
  intros i s. unfold set_indices. destruct (bs_eq s (i_idx i)); auto. destruct (i_match i) as [[v m]|]; auto.
  destruct (write_accesses i); auto.
Qed.

(** * The points of a set, each once *)
Lemma nodup_app2 : forall A (a b : list A), NoDup a -> NoDup b -> (forall x, In x a -> In x b -> False) ->
  NoDup (a ++ b).
Proof.
  induction a as [|x a IH]; intros b Na Nb D; cbn; auto. inversion Na; subst. constructor.
  - rewrite in_app_iff. intros [Q|Q]; [contradiction|]. eapply D; [left; reflexivity|exact Q].
  - apply IH; auto. intros y Hy. apply D. right. auto.
Qed.
Lemma nodup_flat : forall A B (h : A -> list B) l, NoDup l -> (forall x, In x l -> NoDup (h x)) ->
  (forall x y z, In x l -> In y l -> In z (h x) -> In z (h y) -> x = y) -> NoDup (flat_map h l).
Proof.
  intros A B h. induction l as [|x l IH]; intros N H D; cbn; [constructor|].
  inversion N; subst. apply nodup_app2.
  - apply H. cbn. auto.
  - apply IH; auto.
    + intros y Hy. apply H. cbn. auto.
    + intros y y' z Hy Hy'. apply D; cbn; auto.
  - intros z Hz Hf. apply in_flat_map in Hf. destruct Hf as (y & Hy & Hz').
    assert (x = y) by (eapply (D x y z); cbn; auto). subst. contradiction.
Qed.
Lemma box_points_nodup : forall b, NoDup (box_points b).
Proof.
  induction b as [|r b IH]; cbn; [repeat constructor; intros []|].
  apply nodup_flat.
  - unfold range_values. apply FinFun.Injective_map_NoDup; [|apply seq_NoDup]. intros x y E. lia.
  - intros v _. apply FinFun.Injective_map_NoDup; auto. intros x y E. injection E. auto.
  - intros v w p _ _ H1 H2. apply in_map_iff in H1, H2. destruct H1 as (? & <- & _), H2 as (? & E & _).
    injection E. auto.
Qed.
Lemma bs_points_nodup : forall s, disj s -> NoDup (bs_points s).
Proof.
  intros s. induction s as [|b s IH]; intros D; cbn; [constructor|].
  apply FOP_inv in D. destruct D as [D1 D2]. apply nodup_app2; auto; [apply box_points_nodup|].
  intros p H1 H2. apply in_box_points in H1. apply in_bs_points in H2. destruct H2 as (c & Hc & Hp).
  rewrite Forall_forall in D1. apply (D1 c Hc p). auto.
Qed.
Lemma disj_filter : forall (h : mdrange -> bool) s, disj s -> disj (filter h s).
Proof.
  intros h s. induction s as [|b s IH]; intros D; cbn; auto. apply FOP_inv in D. destruct D as [D1 D2].
  destruct (h b); [|apply IH; auto]. constructor; [|apply IH; auto].
  apply Forall_forall. intros x Hx. apply filter_In in Hx. rewrite Forall_forall in D1. apply D1. tauto.
Qed.

Lemma set_indices_points : forall i s given r, set_indices i s given = Ok r ->
  t_rank (i_tmpl i) <> O -> disj (i_idx i) -> disj s ->
  Permutation (scalars r)
    (map (fun p => (ground p (t_lhs (i_tmpl i)), ground p (t_rhs (i_tmpl i)))) (bs_points s)).
Proof.
  intros i s given r H R Di Ds. destruct (set_indices_idx _ _ _ _ H) as [T K].
  unfold scalars. rewrite T. apply Permutation_map. unfold iterations. rewrite T.
  destruct (t_rank (i_tmpl i)); [congruence|]. destruct K as [[-> E]| ->]; auto.
  apply NoDup_Permutation; auto using bs_points_nodup. intros p. rewrite !in_bs_points. symmetry.
  exact (proj1 (bs_eq_spec _ _) E p).
Qed.

Lemma map_res_scalars : forall A (h : A -> res inst) (g : A -> list (gexp * gexp)) l r,
  map_res h l = Ok r -> (forall x n, In x l -> h x = Ok n -> Permutation (scalars n) (g x)) ->
  Permutation (flat_map scalars r) (flat_map g l).
Proof.
  intros A h g. induction l as [|x l IH]; intros r H K; cbn in H.
  - injection H as <-. auto.
  - apply bind_ok in H. destruct H as (n & Hn & H). apply bind_ok in H. destruct H as (r' & Hr & H).
    injection H as <-. cbn. apply Permutation_app; [apply (K x); cbn; auto|]. apply IH; auto.
    intros y m Hy. apply K. cbn. auto.
Qed.
Lemma partition_points : forall (h : mdrange -> bool) s,
  Permutation (bs_points (filter h s) ++ bs_points (filter (fun b => negb (h b)) s)) (bs_points s).
Proof.
  intros h s. induction s as [|b s IH]; cbn; auto. destruct (h b); cbn.
  - rewrite <- app_assoc. apply Permutation_app_head. auto.
  - eapply Permutation_trans; [|apply Permutation_app_head; exact IH].
    rewrite !app_assoc. apply Permutation_app_tail. apply Permutation_app_comm.
Qed.
Lemma flat_map_points : forall (F : point -> gexp * gexp) l,
  flat_map (fun b => map F (bs_points [b])) l = map F (bs_points l).
Proof.
  intros F l. induction l as [|b l IH]; auto. cbn [flat_map]. rewrite IH, <- map_app. f_equal.
  cbn. rewrite app_nil_r. auto.
Qed.
Lemma disj_single : forall b, disj [b].
Proof. intros b. constructor; constructor. Qed.

Theorem scalar_split_scalars : forall i is, (1 <= t_rank (i_tmpl i))%nat -> disj (i_idx i) ->
  scalar_split i = Ok is -> Permutation (flat_map scalars is) (scalars i).
Proof.
  intros i is L D H. unfold scalar_split in H.
  assert (ONE : Permutation (flat_map scalars [i]) (scalars i)) by (cbn; rewrite app_nil_r; auto).
  assert (R : t_rank (i_tmpl i) <> O) by lia.
  set (F := fun p => (ground p (t_lhs (i_tmpl i)), ground p (t_rhs (i_tmpl i)))).
  assert (SI : scalars i = map F (bs_points (i_idx i))).
  { unfold scalars, iterations. destruct (t_rank (i_tmpl i)); [lia|]. auto. }
  destruct (bs_empty (i_idx i)); [injection H as <-; auto|].
  pose proof (partition_points is_single (i_idx i)) as PP.
  destruct (filter is_single (i_idx i)) as [|b singles] eqn:E1; [injection H as <-; auto|].
  rewrite <- E1 in *. clear E1.
  apply bind_ok in H. destruct H as (cs & Hcs & H).
  assert (C : Permutation (flat_map scalars cs) (map F (bs_points (filter is_single (i_idx i))))).
  { rewrite <- flat_map_points. eapply map_res_scalars; [exact Hcs|]. intros x n Hx Hn.
    exact (set_indices_points i [x] _ n Hn R D (disj_single x)). }
  rewrite SI.
  destruct (filter (fun b0 => negb (is_single b0)) (i_idx i)) as [|c rest] eqn:E2.
  - injection H as <-. eapply Permutation_trans; [exact C|]. apply Permutation_map.
    cbn in PP. rewrite app_nil_r in PP. auto.
  - apply bind_ok in H. destruct H as (r & Hr & H). injection H as <-.
    rewrite flat_map_app. cbn [flat_map]. rewrite app_nil_r.
    eapply Permutation_trans; [apply Permutation_app; [exact C|]|].
    + eapply set_indices_points; eauto. rewrite <- E2. apply disj_filter. auto.
    + fold F. rewrite <- map_app. apply Permutation_map. auto.
Qed.

(** * Single-valued inductions *)
Lemma single_values : forall r, range_size r = 1 -> range_values r = [rbegin r].
Proof. intros r H. unfold range_values. rewrite H. change (Z.to_nat 1) with 1%nat. cbn [seq map]. change (Z.of_nat 0) with 0. rewrite Z.add_0_r. reflexivity. Qed.

Lemma map_flat : forall A B C (f : B -> C) (h : A -> list B) l, map f (flat_map h l) = flat_map (fun x => map f (h x)) l.
Proof. intros. induction l; cbn; auto. rewrite map_app, IHl. auto. Qed.

Lemma reduction_points : forall b pre,
  map (fun p => map (sub_at (pre ++ p)) (reduction b (length pre))) (box_points (kept_dims b)) = box_points b.
Proof.
  induction b as [|r b IH]; intros pre; [reflexivity|].
  cbn [reduction kept_dims filter box_points]. fold (kept_dims b).
  destruct (single_dim r) eqn:E; cbn [negb].
  - apply Z.eqb_eq in E. rewrite (single_values r E). cbn [flat_map]. rewrite app_nil_r.
    rewrite <- (IH pre), map_map. apply map_ext. intros p. reflexivity.
  - cbn [box_points]. rewrite map_flat. apply flat_map_ext. intros v. rewrite map_map.
    rewrite <- (IH (pre ++ [v])), map_map. apply map_ext. intros p. cbn [map].
    replace (length (pre ++ [v])) with (S (length pre)) by (rewrite app_length; cbn; lia).
    rewrite <- app_assoc. cbn [app]. f_equal. cbn. rewrite app_nth2; [|lia].
    rewrite Nat.sub_diag. cbn. lia.
Qed.

Lemma kept_length : forall b, existsb single_dim b = true -> (length (kept_dims b) < length b)%nat.
Proof.
  intros b. unfold kept_dims. induction b as [|r b IH]; cbn; [discriminate|].
  assert (LE : forall l, (length (filter (fun r => negb (single_dim r)) l) <= length l)%nat).
  { induction l as [|x l IHl]; cbn; [lia|]. destruct (single_dim x); cbn; lia. }
  destruct (single_dim r); cbn; [specialize (LE b); lia|]. intros H. specialize (IH H). lia.
Qed.

Lemma svie_range_scalars : forall i b n, (1 <= t_rank (i_tmpl i))%nat -> bs_of (t_rank (i_tmpl i)) (i_idx i) ->
  In b (i_idx i) -> existsb single_dim b = true -> svie_range i b = Ok n ->
  scalars n = map (fun p => (ground p (t_lhs (i_tmpl i)), ground p (t_rhs (i_tmpl i)))) (bs_points [b]).
Proof.
  intros i b n L B Hb S H. unfold svie_range in H.
  set (s := match kept_dims b with [] => [] | ks => [ks] end) in *.
  assert (BB : box_of (t_rank (i_tmpl i)) b) by (unfold bs_of in B; rewrite Forall_forall in B; auto).
  destruct (set_indices_idx _ _ _ _ H) as [T K]. cbn [i_tmpl i_idx] in T, K.
  assert (I : i_idx n = s).
  { destruct K as [[_ E]|K]; auto. exfalso.
    destruct (box_point _ _ BB) as [p Hp].
    assert (Q : in_boxes p s). { apply (proj2 (proj1 (bs_eq_spec _ _) E p)). exists b. auto. }
    pose proof (kept_length b S) as KL. pose proof (in_box_length _ _ Hp) as LP.
    unfold s in Q. destruct (kept_dims b) as [|r ks] eqn:KD; [destruct Q as (? & [] & _)|].
    destruct Q as (c & [<-|[]] & Q). apply in_box_length in Q. lia. }
  unfold scalars, iterations. rewrite T, I. cbn [t_rank t_lhs t_rhs reduce_tmpl].
  replace (bs_points [b]) with (box_points b) by (cbn; rewrite app_nil_r; reflexivity).
  rewrite <- (reduction_points b []). rewrite map_map.
  assert (P : match length (kept_dims b) with O => [[]] | Datatypes.S _ => bs_points s end = box_points (kept_dims b)).
  { unfold s. destruct (kept_dims b) as [|r ks]; [reflexivity|]. cbn. rewrite app_nil_r. auto. }
  etransitivity; [apply (f_equal (map _) P)|]. apply map_ext. intros p. rewrite !subst_ground. reflexivity.
Qed.

Lemma remove_own : forall rk l b, bs_of rk l -> box_of rk b ->
  (forall x, In x l -> mdrange_overlaps x b = true -> x = b) ->
  bs_remove l b = filter (fun x => negb (mdrange_overlaps x b)) l.
Proof.
  intros rk l b B Bb H. unfold bs_remove. induction l as [|x l IH]; auto. cbn.
  inversion B as [|? ? Bx Bl]; subst.
  rewrite IH; auto; [|intros y Hy; apply H; cbn; auto].
  destruct (mdrange_overlaps x b) eqn:E; cbn [negb]; auto.
  assert (x = b) by (apply H; cbn; auto). subst x.
  destruct (mdrange_subtract b b) as [|c cs] eqn:S; auto. exfalso.
  pose proof (subtract_boxes rk b b Bb Bb) as F. rewrite S in F. inversion F as [|? ? Bc _]; subst.
  destruct (box_point _ _ Bc) as [p Hp].
  assert (Q : in_boxes p (mdrange_subtract b b)) by (rewrite S; exists c; cbn; auto).
  apply (subtract_in rk) in Q; auto. tauto.
Qed.

Lemma disj_same : forall rk l x b, bs_of rk l -> disj l -> In x l -> In b l -> mdrange_overlaps x b = true -> x = b.
Proof.
  intros rk l x b B D Hx Hb O.
  assert (BX : box_of rk x /\ box_of rk b) by (unfold bs_of in B; rewrite Forall_forall in B; auto).
  destruct BX as [BX BB].
  apply mdrange_overlaps_spec in O; eauto using box_of_len, box_of_ranges. destruct O as (p & H1 & H2).
  destruct (ForallOrdPairs_In D x b Hx Hb) as [E|[E|E]]; auto; exfalso; apply (E p); auto.
Qed.

Lemma remove_all : forall rk (h : mdrange -> bool) l, bs_of rk l -> disj l ->
  fold_left bs_remove (filter h l) l = filter (fun x => negb (h x)) l.
Proof.
  intros rk h l B D. pose proof B as B'. unfold bs_of in B'. rewrite Forall_forall in B'.
  assert (G : forall cut l', incl cut l -> incl l' l -> bs_of rk l' ->
    fold_left bs_remove cut l' = filter (fun x => negb (existsb (fun b => mdrange_overlaps x b) cut)) l').
  { induction cut as [|b cut IH]; intros l' HC HL BL; cbn.
    - symmetry. clear. induction l' as [|x l' IH]; cbn; auto. f_equal. auto.
    - rewrite (remove_own rk); auto.
      + rewrite IH.
        * clear. induction l' as [|x l' IH]; cbn; auto. destruct (mdrange_overlaps x b); cbn; auto.
          destruct (existsb (fun b0 => mdrange_overlaps x b0) cut); cbn; auto. f_equal. auto.
        * intros x Hx. apply HC. cbn. auto.
        * intros x Hx. apply HL. apply filter_In in Hx. tauto.
        * unfold bs_of in *. rewrite Forall_forall in *. intros x Hx. apply filter_In in Hx. apply BL. tauto.
      + apply B', HC. cbn. auto.
      + intros x Hx. apply (disj_same rk l); auto. apply HC. cbn. auto. }
  rewrite G; auto; [|intros x Hx; apply filter_In in Hx; tauto|apply incl_refl].
  apply filter_ext_in. intros x Hx. f_equal. destruct (h x) eqn:E.
  - apply existsb_exists. exists x. split; [apply filter_In; auto|].
    apply mdrange_overlaps_spec; eauto using box_of_ranges. destruct (box_point rk x (B' x Hx)) as [p Hp]. eauto.
  - destruct (existsb (fun b => mdrange_overlaps x b) (filter h l)) eqn:Q; auto.
    apply existsb_exists in Q. destruct Q as (b & Hb & O). apply filter_In in Hb. destruct Hb as [Hb E'].
    assert (x = b) by (eapply disj_same; eauto). congruence.
Qed.

Theorem svie_scalars : forall i is, (1 <= t_rank (i_tmpl i))%nat -> wf_inst i -> disj (i_idx i) ->
  svie i = Ok is -> Permutation (flat_map scalars is) (scalars i).
Proof.
  intros i is L W D H. unfold svie in H.
  assert (B : bs_of (t_rank (i_tmpl i)) (i_idx i)).
  { unfold wf_inst in W. destruct (t_rank (i_tmpl i)); [lia|apply W]. }
  assert (ONE : Permutation (flat_map scalars [i]) (scalars i)) by (cbn; rewrite app_nil_r; auto).
  assert (R : t_rank (i_tmpl i) <> O) by lia.
  set (F := fun p => (ground p (t_lhs (i_tmpl i)), ground p (t_rhs (i_tmpl i)))).
  assert (SI : scalars i = map F (bs_points (i_idx i))).
  { unfold scalars, iterations. destruct (t_rank (i_tmpl i)); [lia|]. auto. }
  destruct (bs_empty (i_idx i)); [injection H as <-; auto|].
  apply bind_ok in H. destruct H as (ns & Hns & H).
  rewrite (remove_all (t_rank (i_tmpl i))) in H; auto.
  assert (C : Permutation (flat_map scalars ns) (map F (bs_points (filter (existsb single_dim) (i_idx i))))).
  { rewrite <- flat_map_points. eapply map_res_scalars; [exact Hns|]. intros x n Hx Hn.
    apply filter_In in Hx. rewrite (svie_range_scalars i x n); auto; tauto. }
  pose proof (partition_points (existsb single_dim) (i_idx i)) as PP. rewrite SI.
  destruct (filter (fun x : mdrange => negb (existsb single_dim x)) (i_idx i)) as [|c rest] eqn:E2; cbn [bs_empty] in H.
  - injection H as <-. eapply Permutation_trans; [exact C|]. apply Permutation_map.
    cbn in PP. rewrite app_nil_r in PP. auto.
  - apply bind_ok in H. destruct H as (r & Hr & H). injection H as <-.
    rewrite flat_map_app. cbn [flat_map]. rewrite app_nil_r.
    eapply Permutation_trans; [apply Permutation_app; [exact C|]|].
    + eapply set_indices_points; eauto. rewrite <- E2. apply disj_filter. auto.
    + fold F. rewrite <- map_app. apply Permutation_map. auto.
Qed.

(** Without a match nothing can go wrong. *)
Theorem svie_unmatched : forall i, i_match i = None -> exists is, svie i = Ok is.
Proof.
  intros i U. unfold svie. destruct (bs_empty (i_idx i)); [eauto|].
  assert (G : forall l, exists ns, map_res (svie_range i) l = Ok ns).
  { assert (V : forall b, exists n, svie_range i b = Ok n).
    { intros b. unfold svie_range, set_indices. cbn [i_match i_idx i_tmpl].
      destruct (bs_eq _ (i_idx i)); [eauto|]. rewrite U. eauto. }
    induction l as [|b l [ns IH]]; cbn [map_res]; [eauto|].
    destruct (V b) as [n ->]. rewrite IH. cbn. eauto. }
  destruct (G (filter (existsb single_dim) (i_idx i))) as [ns ->]. cbn [bind].
  destruct (bs_empty (fold_left bs_remove (filter (existsb single_dim) (i_idx i)) (i_idx i))); [eauto|].
  unfold set_indices. destruct (bs_eq _ (i_idx i)); cbn; [eauto|]. rewrite U. cbn. eauto.
Qed.
