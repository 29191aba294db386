(** Proofs about references to components of records. *)
From Coq Require Import List Arith Bool ZArith Lia.
Import ListNotations.
From Verif Require Import RecordRefModel RecordRefSpec.

(** ** Lowering *)

Lemma filter_length_le : forall A (f : A -> bool) l, length (filter f l) <= length l.
Proof. intros A f. induction l as [|a l IH]; [auto|]. cbn. destruct (f a); cbn; lia. Qed.

Lemma picked_view : forall ss r j i, picked ss r j i ->
  view_index ss j = i /\ length i = r /\ length ss <= r /\ length j = r - nats ss.
Proof.
  intros ss r j i H. induction H as [r j L | i ss r j k H (E & L & L2 & L3) | b st x ss r j k H (E & L & L2 & L3)].
  - cbn. repeat split; lia.
  - cbn [view_index length nats filter]. rewrite E. unfold nats in *. cbn [filter length]. repeat split; lia.
  - cbn [view_index length]. rewrite E.
    assert (nats ss <= length ss) by (unfold nats; apply filter_length_le).
    unfold nats in *. cbn [filter length]. repeat split; lia.
Qed.

Lemma view_colons : forall j, view_index (repeat colon (length j)) j = j.
Proof.
  induction j as [|x j IH]; [reflexivity|]. cbn [length repeat]. unfold colon at 1. cbn [view_index].
  rewrite IH. f_equal. lia.
Qed.

Lemma picked_pad : forall ss r j i, picked ss r j i ->
  view_index (ss ++ repeat colon (r - length ss)) j = i.
Proof.
  intros ss r j i H. induction H as [r j L | i ss r j k H E | b st x ss r j k H E].
  - cbn [app length]. rewrite Nat.sub_0_r, <- L. apply view_colons.
  - cbn [app length Nat.sub view_index]. now rewrite E.
  - cbn [app length Nat.sub view_index]. now rewrite E.
Qed.

Lemma view_prefix : forall j1 ss j2, view_index (repeat colon (length j1) ++ ss) (j1 ++ j2) = j1 ++ view_index ss j2.
Proof.
  induction j1 as [|x j1 IH]; intros ss j2; [reflexivity|]. cbn [length repeat app]. unfold colon at 1. cbn [view_index].
  rewrite IH. f_equal. lia.
Qed.

Lemma nats_app : forall a b, nats (a ++ b) = nats a + nats b.
Proof. intros. unfold nats. now rewrite filter_app, app_length. Qed.
Lemma nats_colons : forall k, nats (repeat colon k) = 0.
Proof. induction k as [|k IH]; [reflexivity|]. exact IH. Qed.
Lemma nats_le : forall ss, nats ss <= length ss.
Proof. intros. unfold nats. apply filter_length_le. Qed.

Lemma lower_subs_some : forall ch rank ss first last, ss <> [] -> lower_subs ch rank ss first last =
  let pad := if xorb first last then repeat colon (rank - length ss) else [] in
  let full := if first then ss ++ pad else pad ++ ss in
  if length full <=? rank then Some (CView full :: ch, rank - nats full) else None.
Proof. intros ch rank [|s ss] first last H; [congruence|reflexivity]. Qed.

Lemma lower_first : forall ss r j i last, picked ss r j i ->
  exists ch rank, lower_subs [] r ss true last = Some (ch, rank) /\ length j = rank /\
    forall root, elem root ch j = (root, i).
Proof.
  intros ss r j i last H. pose proof (picked_view _ _ _ _ H) as (E & L & L2 & L3).
  destruct ss as [|s ss]; [exists [], r; cbn in *; subst; repeat split; lia|].
  remember (s :: ss) as w eqn:Ew. rewrite lower_subs_some by congruence. cbv zeta.
  destruct (xorb true last).
  - assert (Hl : length (w ++ repeat colon (r - length w)) = r) by (rewrite app_length, repeat_length; lia).
    rewrite Hl, Nat.leb_refl. eexists; eexists. split; [reflexivity|].
    rewrite nats_app, nats_colons. split; [lia|]. intros root. cbn [elem]. now rewrite picked_pad with (i := i).
  - rewrite app_nil_r. replace (length w <=? r) with true by (symmetry; apply Nat.leb_le; lia).
    eexists; eexists. split; [reflexivity|]. split; [lia|]. intros root. cbn [elem]. now rewrite E.
Qed.

Lemma elem_comp : forall root ch n f j x p i, elem root ch j = (p, i) -> length j = n ->
  elem root (CComp n f :: ch) (j ++ x) = (p ++ [f], i ++ x).
Proof.
  intros root ch n f j x p i E L. cbn [elem]. subst n.
  rewrite firstn_app, Nat.sub_diag, firstn_all, firstn_O, app_nil_r, E.
  rewrite skipn_app, Nat.sub_diag, skipn_all. reflexivity.
Qed.

Lemma lower_path_names : forall es root ch rank t j1 p1 i1 j2 p2 i2 t',
  elem root ch j1 = (p1, i1) -> length j1 = rank -> regular_path t rank es ->
  names t es j2 p2 i2 t' ->
  exists ch' rank', lower_path ch rank t es = Some (ch', rank', t') /\
    length (j1 ++ j2) = rank' /\ elem root ch' (j1 ++ j2) = (p1 ++ p2, i1 ++ i2).
Proof.
  induction es as [|[f ss] es IH]; intros root ch rank t j1 p1 i1 j2 p2 i2 t' E L R N.
  - inversion N; subst. exists ch, (length j1). rewrite !app_nil_r. auto.
  - inversion N as [|? ? ? ? r ty ? j i j' p i' Hf Hp Hn]; subst. cbn [lower_path].
    destruct t as [|fs]; [discriminate|]. cbn [regular_path] in R. rewrite Hf in R. rewrite Hf.
    pose proof (picked_view _ _ _ _ Hp) as (Ev & Li & Ls & Lj).
    (* the value of the component with the subscripts of the entry *)
    assert (St : exists ch2, lower_subs (CComp (length j1) f :: ch) (length j1 + r) ss false (is_nil es)
                 = Some (ch2, length j1 + (r - nats ss)) /\
                 elem root ch2 (j1 ++ j) = (p1 ++ [f], i1 ++ i)).
    { destruct ss as [|s ss].
      - cbn [lower_subs nats filter length]. rewrite Nat.sub_0_r. eexists. split; [reflexivity|].
        cbn [view_index] in Ev. subst i. exact (elem_comp root ch _ f j1 j p1 i1 E eq_refl).
      - remember (s :: ss) as w eqn:Ew. rewrite lower_subs_some by congruence. cbv zeta. destruct es as [|e es].
        + cbn [is_nil xorb]. destruct R as [R|R]; [congruence|].
          replace (length j1 + r - length w) with (length j1) by lia.
          replace (length (repeat colon (length j1) ++ w) <=? length j1 + r) with true
            by (symmetry; apply Nat.leb_le; rewrite app_length, repeat_length; lia).
          eexists. split.
          * rewrite nats_app, nats_colons. pose proof (nats_le w). do 2 f_equal. lia.
          * cbn [elem]. rewrite view_prefix, Ev. exact (elem_comp root ch _ f j1 i p1 i1 E eq_refl).
        + cbn [is_nil xorb app]. destruct R as ([R|R] & _); [congruence|].
          destruct j1; [|discriminate]. cbn [length Nat.add app].
          replace (length w <=? r) with true by (symmetry; apply Nat.leb_le; lia).
          eexists. split; [reflexivity|]. cbn [elem]. rewrite Ev.
          exact (elem_comp root ch 0 f [] i p1 i1 E eq_refl). }
    destruct St as (ch2 & -> & E2).
    destruct (IH root ch2 (length j1 + (r - nats ss)) ty (j1 ++ j) (p1 ++ [f]) (i1 ++ i) j' p i' t' E2)
      as (ch' & rank' & El & Lr & Ee).
    + rewrite app_length. lia.
    + destruct es as [|e es]; [exact Logic.I|]. apply R.
    + exact Hn.
    + exists ch', rank'. rewrite <- !app_assoc in *. auto.
Qed.

Lemma lower_names : forall vars ref j p i t, ref <> [] -> regular vars ref -> names vars ref j p i t ->
  exists v ch rank, lower vars ref = Some (v, ch, rank, t) /\ length j = rank /\ elem [v] ch j = (p, i).
Proof.
  intros vars [|[v ss] es] j p i t Ne R N; [congruence|]. clear Ne.
  inversion N as [|? ? ? ? r ty ? j1 i1 j' p' i' Hf Hp Hn]; subst.
  cbn [regular] in R. cbn [lower]. rewrite Hf in *.
  destruct (lower_first ss r j1 i1 (is_nil es) Hp) as (ch & rank & -> & L & E).
  pose proof (picked_view _ _ _ _ Hp) as (_ & _ & _ & L3).
  assert (Er : rank = r - nats ss) by lia. rewrite <- Er in R.
  destruct (lower_path_names es [v] ch rank ty j1 [v] i1 j' p' i' t (E [v]) L R Hn) as (ch' & rank' & -> & Lr & Ee).
  exists v, ch', rank'. auto.
Qed.

(** ** Unpacking *)

Lemma path_eqb_spec : forall p q, path_eqb p q = true <-> p = q.
Proof.
  induction p as [|a p IH]; intros [|b q]; cbn [path_eqb]; try (split; congruence).
  rewrite andb_true_iff, Nat.eqb_eq, IH. split; [intros (-> & ->); reflexivity|]. intros E. injection E; auto.
Qed.
Lemma path_eqb_refl : forall p, path_eqb p p = true.
Proof. intros. now apply path_eqb_spec. Qed.

Definition views_only (ch : list cop) : Prop := forall c, In c ch -> exists ss, c = CView ss.

Lemma push_views : forall ch, views_only ch -> push ch = None.
Proof.
  induction ch as [|c ch IH]; intros H; [reflexivity|]. cbn [push]. rewrite IH by (intros x Hx; apply H; now right).
  destruct (H c (or_introl eq_refl)) as (ss & ->). reflexivity.
Qed.
Lemma push_split : forall outer n f views, views_only views -> push (outer ++ CComp n f :: views) = Some (f, outer ++ views).
Proof.
  induction outer as [|c outer IH]; intros n f views H; cbn [app push].
  - now rewrite push_views.
  - now rewrite IH.
Qed.

(** What the views of a record do to the dimensions of its components. *)
Lemma nats_at : forall i ss, nats (At i :: ss) = S (nats ss).
Proof. reflexivity. Qed.
Lemma nats_rng : forall b st ss, nats (Rng b st :: ss) = nats ss.
Proof. reflexivity. Qed.
Lemma view_index_app : forall ss a b, length ss <= length a + nats ss -> view_index ss (a ++ b) = view_index ss a ++ b.
Proof.
  induction ss as [|s ss IH]; intros a b L; [reflexivity|]. pose proof (nats_le ss).
  destruct s as [i|b0 st]; cbn [view_index length] in *; rewrite ?nats_at, ?nats_rng in L.
  - rewrite IH; [reflexivity|]. lia.
  - destruct a as [|x a]; cbn [app length] in *; [lia|]. rewrite IH; [reflexivity|]. lia.
Qed.
Lemma view_index_length : forall ss a m, length ss <= m -> length a = m - nats ss -> length (view_index ss a) = m.
Proof.
  induction ss as [|s ss IH]; intros a m L La; [change (nats []) with 0 in La; cbn [view_index]; lia|].
  cbn [length] in L. destruct m as [|m]; [lia|]. pose proof (nats_le ss) as N.
  destruct s as [i|b0 st]; cbn [view_index]; rewrite ?nats_at, ?nats_rng in La.
  - cbn [length]. f_equal. apply IH; lia.
  - destruct a as [|x a]; cbn [length] in *; [lia|]. f_equal. apply IH; lia.
Qed.

Lemma views_elem : forall ch root r0 out a b, views_only ch -> ranked r0 ch out -> length a = out ->
  elem root ch (a ++ b) = (root, snd (elem root ch a) ++ b) /\ fst (elem root ch a) = root.
Proof.
  induction ch as [|c ch IH]; intros root r0 out a b V R L; [auto|].
  destruct (V c (or_introl eq_refl)) as (ss & ->). cbn [ranked] in R. destruct R as (m & Rm & Ls & ->).
  pose proof (nats_le ss). cbn [elem]. rewrite view_index_app by lia.
  apply (IH root r0 m); [intros x Hx; apply V; now right|exact Rm|]. apply view_index_length; lia.
Qed.
Lemma views_root : forall ch root root' j, views_only ch -> snd (elem root ch j) = snd (elem root' ch j).
Proof.
  induction ch as [|c ch IH]; intros root root' j V; [reflexivity|].
  destruct (V c (or_introl eq_refl)) as (ss & ->). cbn [elem]. apply IH. intros x Hx; apply V; now right.
Qed.

Lemma push_elem : forall outer n f views root r0 out j, views_only views ->
  ranked r0 (outer ++ CComp n f :: views) out -> length j = out ->
  elem (root ++ [f]) (outer ++ views) j = elem root (outer ++ CComp n f :: views) j.
Proof.
  induction outer as [|c outer IH]; intros n f views root r0 out j V R L; cbn [app] in *.
  - cbn [ranked] in R. destruct R as (Rn & k & ->). cbn [elem].
    assert (La : length (firstn n j) = n) by (rewrite firstn_length; lia).
    destruct (views_elem views (root ++ [f]) r0 n (firstn n j) (skipn n j) V Rn La) as (E & _).
    rewrite firstn_skipn in E. rewrite E.
    destruct (views_elem views root r0 n (firstn n j) [] V Rn La) as (_ & ->).
    now rewrite (views_root views root (root ++ [f]) (firstn n j) V).
  - destruct c as [ss|m g]; cbn [ranked elem] in *.
    + destruct R as (m & Rm & Ls & ->). apply (IH n f views root r0 m); [exact V|exact Rm|]. apply view_index_length; lia.
    + destruct R as (Rn & k & ->).
      rewrite (IH n f views root r0 m (firstn m j) V Rn); [reflexivity|]. rewrite firstn_length. lia.
Qed.

(** ** All the steps *)

Lemma all_some_forall2 : forall A B (f : A -> option B) l l', all_some f l = Some l' ->
  Forall2 (fun a b => f a = Some b) l l'.
Proof.
  intros A B f. induction l as [|a l IH]; intros l' E; cbn [all_some] in E.
  - injection E as <-. constructor.
  - destruct (f a) as [b|] eqn:Ea; [|discriminate]. destruct (all_some f l) as [bs|]; [|discriminate].
    injection E as <-. constructor; auto.
Qed.

Definition vset := list (list nat * (nat * rty)).

(** A read in the middle: of a component of type [t], not yet handled or handled. *)
Definition fresh_read (vars : vset) (v : nat) (ch : list cop) (t : rty) (rd : read) : Prop :=
  rd = mkRead [v] ch true /\
  exists r fs f rf k views outer,
    In ([v], (r, TRec fs)) vars /\ (forall x, In ([v], x) vars -> x = (r, TRec fs)) /\
    (forall q x, In (q, x) vars -> hd_error q = Some v -> q = [v]) /\
    NoDup (map fst fs) /\ ch = outer ++ CComp k f :: views /\ views_only views /\ In (f, (rf, t)) fs.
Definition done_read (vars : vset) (v : nat) (ch : list cop) (t : rty) (rd : read) : Prop :=
  exists f k views outer, ch = outer ++ CComp k f :: views /\ views_only views /\
    rd = mkRead [v; f] (outer ++ views) false /\
    (forall x, ~ In ([v], x) vars) /\
    (forall r' t', In ([v; f], (r', t')) vars -> t' = t) /\
    (t = TBase -> exists r', In ([v; f], (r', TBase)) vars).
Definition plain_state (vars : vset) (v : nat) (ch : list cop) (rd : read) : Prop :=
  rd = mkRead [v] ch true /\ (exists r, In ([v], (r, TBase)) vars) /\ (forall x, In ([v], x) vars -> snd x = TBase).

Definition paths_ok (vars : vset) : Prop := forall q x, In (q, x) vars -> q <> [].

Lemma in_components : forall p r fs q x, In (q, x) (components p r fs) ->
  exists f y, In (f, y) fs /\ q = p ++ [f] /\ x = (r + fst y, snd y).
Proof.
  intros p r fs q x H. unfold components in H. apply in_map_iff in H as ((f, y) & E & H). injection E as <- <-.
  exists f, y. auto.
Qed.

Lemma nodup_field : forall (fs : list (nat * (nat * rty))) f a b, NoDup (map fst fs) -> In (f, a) fs -> In (f, b) fs -> a = b.
Proof.
  induction fs as [|[g c] fs IH]; intros f a b N Ha Hb; [destruct Ha|]. cbn in N. inversion N as [|? ? Ng N']; subst.
  destruct Ha as [Ha|Ha]; destruct Hb as [Hb|Hb]; try congruence.
  - injection Ha as -> ->. destruct Ng. apply in_map_iff. exists (f, b). auto.
  - injection Hb as -> ->. destruct Ng. apply in_map_iff. exists (f, a). auto.
  - eauto.
Qed.

Section Step.
Variables (p : list nat) (r0 : nat) (fs0 : list (nat * (nat * rty))) (vars : vset).
Hypothesis Pok : paths_ok vars.
Hypothesis Hp : In (p, (r0, TRec fs0)) vars.
Let vars' := filter (fun x => negb (path_eqb (fst x) p)) vars ++ components p r0 fs0.

Lemma in_vars' : forall q x, In (q, x) vars' <-> (In (q, x) vars /\ q <> p) \/ In (q, x) (components p r0 fs0).
Proof.
  intros q x. unfold vars'. rewrite in_app_iff, filter_In. cbn [fst]. rewrite negb_true_iff.
  rewrite <- not_true_iff_false, path_eqb_spec. tauto.
Qed.
Lemma p_ne : p <> [].
Proof. exact (Pok p _ Hp). Qed.
Lemma vars'_ok : paths_ok vars'.
Proof.
  intros q x H. apply in_vars' in H as [(H & _)|H]; [exact (Pok q x H)|].
  apply in_components in H as (f & y & _ & -> & _). destruct p; discriminate.
Qed.
Lemma no_new_single : forall v x, ~ In ([v], x) (components p r0 fs0).
Proof.
  intros v x H. apply in_components in H as (f & y & _ & E & _). pose proof p_ne as N.
  destruct p as [|a [|b l]]; [congruence|discriminate|discriminate].
Qed.
Lemma new_pair : forall v f x, In ([v; f], x) (components p r0 fs0) -> p = [v] /\ exists y, In (f, y) fs0 /\ x = (r0 + fst y, snd y).
Proof.
  intros v f x H. apply in_components in H as (g & y & Hg & E & ->). destruct p as [|a [|b l]]; [discriminate| |destruct l; discriminate].
  injection E as -> ->. eauto.
Qed.

Lemma step_fresh : forall v ch t rd rd', fresh_read vars v ch t rd -> unpack_read p rd = Some rd' ->
  fresh_read vars' v ch t rd' \/ done_read vars' v ch t rd'.
Proof.
  intros v ch t rd rd' (-> & r & fs & f & rf & k & views & outer & Hin & Hu & Hh & Nd & -> & Vo & Hf) E.
  unfold unpack_read in E. cbn [rd_known rd_root rd_chain andb] in E.
  destruct (path_eqb [v] p) eqn:Ev.
  - apply path_eqb_spec in Ev. rewrite push_split in E by exact Vo. injection E as <-. right.
    assert (X : (r0, TRec fs0) = (r, TRec fs)) by (apply Hu; rewrite Ev; exact Hp). assert (X1 : r0 = r) by congruence. assert (X2 : fs0 = fs) by congruence.
    exists f, k, views, outer. split; [reflexivity|]. split; [exact Vo|]. split; [rewrite <- Ev; reflexivity|]. split; [|split].
    + intros x H. apply in_vars' in H as [(_ & H)|H]; [congruence|]. exact (no_new_single v x H).
    + intros r' t' H. apply in_vars' in H as [(H & _)|H].
      * specialize (Hh _ _ H eq_refl). discriminate.
      * apply new_pair in H as (_ & y & Hy & Ex). rewrite X2 in Hy. rewrite (nodup_field fs f y (rf, t) Nd Hy Hf) in Ex. cbn in Ex. congruence.
    + intros Et. exists (r + rf). apply in_vars'. right. unfold components. apply in_map_iff. exists (f, (rf, TBase)).
      rewrite X1, X2, <- Ev. rewrite Et in Hf. auto.
  - injection E as <-. left. split; [reflexivity|].
    assert (Np : p <> [v]) by (intros X; rewrite X, path_eqb_refl in Ev; discriminate).
    exists r, fs, f, rf, k, views, outer. repeat split; try assumption.
    + apply in_vars'. left. split; [exact Hin|congruence].
    + intros x H. apply in_vars' in H as [(H & _)|H]; [auto|]. destruct (no_new_single v x H).
    + intros q x H Hq. apply in_vars' in H as [(H & _)|H]; [eauto|]. exfalso.
      apply in_components in H as (g & y & _ & -> & _). pose proof p_ne as Ne.
      assert (Hh' : hd_error p = Some v) by (destruct p; [congruence|exact Hq]). exact (Np (Hh _ _ Hp Hh')).
Qed.
Lemma step_done : forall v ch t rd rd', done_read vars v ch t rd -> unpack_read p rd = Some rd' -> done_read vars' v ch t rd'.
Proof.
  intros v ch t rd rd' (f & k & views & outer & -> & Vo & -> & Hn & Ht & Hb) E. cbn in E. injection E as <-.
  assert (Np : p <> [v]) by (intros X; apply (Hn (r0, TRec fs0)); rewrite <- X; exact Hp).
  exists f, k, views, outer. repeat split; try assumption.
  - intros x H. apply in_vars' in H as [(H & _)|H]; [exact (Hn x H)|]. exact (no_new_single v x H).
  - intros r' t' H. apply in_vars' in H as [(H & _)|H]; [exact (Ht r' t' H)|]. apply new_pair in H as (H & _). contradiction.
  - intros Eb. destruct (Hb Eb) as (r' & Hr). exists r'. apply in_vars'. left. split; [exact Hr|]. intros Ep.
    pose proof Hp as Hv. rewrite <- Ep in Hv. pose proof (Ht r0 _ Hv). congruence.
Qed.
Lemma step_plain : forall v ch rd rd', plain_state vars v ch rd -> unpack_read p rd = Some rd' -> plain_state vars' v ch rd'.
Proof.
  intros v ch rd rd' (-> & (r & Hr) & Ha) E. unfold unpack_read in E. cbn [rd_known rd_root rd_chain andb] in E.
  destruct (path_eqb [v] p) eqn:Ev.
  - exfalso. apply path_eqb_spec in Ev. pose proof Hp as Hv. rewrite <- Ev in Hv. specialize (Ha _ Hv). discriminate.
  - injection E as <-. split; [reflexivity|].
    assert (Np : [v] <> p) by (intros X; rewrite <- X, path_eqb_refl in Ev; discriminate). split.
    + exists r. apply in_vars'. auto.
    + intros x H. apply in_vars' in H as [(H & _)|H]; [auto|]. destruct (no_new_single v x H).
Qed.
End Step.

(** A read in the middle, with the type of the component fixed. *)
Definition kept_as (vars : vset) (rd0 : nat * list cop) (t : rty) (rd : read) : Prop :=
  fresh_read vars (fst rd0) (snd rd0) t rd \/ done_read vars (fst rd0) (snd rd0) t rd.

Lemma find_path : forall (vars : vset) p q x, find (fun y => path_eqb (fst y) p) vars = Some (q, x) -> In (p, x) vars.
Proof.
  intros vars p q x F. apply find_some in F as (H & E). cbn [fst] in E. apply path_eqb_spec in E as ->. exact H.
Qed.

Lemma unpack_inv : forall p st st', paths_ok (u_vars st) -> unpack p st = Some st' ->
  paths_ok (u_vars st') /\ length (u_reads st') = length (u_reads st) /\
  forall n rd, nth_error (u_reads st) n = Some rd -> exists rd', nth_error (u_reads st') n = Some rd' /\
    (forall v ch, plain_state (u_vars st) v ch rd -> plain_state (u_vars st') v ch rd') /\
    (forall rd0 t, kept_as (u_vars st) rd0 t rd -> kept_as (u_vars st') rd0 t rd').
Proof.
  intros p st st' Pok E. unfold unpack in E.
  destruct (find _ _) as [[q [r [|fs]]]|] eqn:F; try discriminate. apply find_path in F.
  destruct (all_some (unpack_read p) (u_reads st)) as [rds|] eqn:Ea; [|discriminate]. injection E as <-.
  cbn [u_vars u_reads]. apply all_some_forall2 in Ea.
  split; [exact (vars'_ok p r fs (u_vars st) Pok F)|]. split.
  - clear -Ea. induction Ea; cbn; congruence.
  - intros n rd Hn. revert n Hn. induction Ea as [|a b l l' Hab Ea IH]; intros n Hn; [destruct n; discriminate|].
    destruct n as [|n]; cbn [nth_error] in *; [|exact (IH n Hn)]. injection Hn as ->. exists b. split; [reflexivity|]. split.
    + intros v ch Hs. exact (step_plain p r fs (u_vars st) Pok F v ch rd b Hs Hab).
    + intros rd0 t [Hs|Hs].
      * exact (step_fresh p r fs (u_vars st) Pok F _ _ t rd b Hs Hab).
      * right. exact (step_done p r fs (u_vars st) Pok F _ _ t rd b Hs Hab).
Qed.

Lemma unpack_all_inv : forall ps st st', paths_ok (u_vars st) -> unpack_all ps st = Some st' ->
  length (u_reads st') = length (u_reads st) /\
  forall n rd, nth_error (u_reads st) n = Some rd -> exists rd', nth_error (u_reads st') n = Some rd' /\
    (forall v ch, plain_state (u_vars st) v ch rd -> plain_state (u_vars st') v ch rd') /\
    (forall rd0 t, kept_as (u_vars st) rd0 t rd -> kept_as (u_vars st') rd0 t rd').
Proof.
  induction ps as [|p ps IH]; intros st st' Pok E; cbn [unpack_all] in E.
  - injection E as <-. split; [reflexivity|]. intros n rd H. exists rd. auto.
  - destruct (unpack p st) as [st1|] eqn:E1; [|discriminate].
    destruct (unpack_inv p st st1 Pok E1) as (Pok1 & L1 & H1). destruct (IH st1 st' Pok1 E) as (L2 & H2).
    split; [congruence|]. intros n rd Hn. destruct (H1 n rd Hn) as (rd1 & Hn1 & A1 & B1).
    destruct (H2 n rd1 Hn1) as (rd2 & Hn2 & A2 & B2). exists rd2. auto.
Qed.

Lemma ustart_ok : forall fields reads, paths_ok (u_vars (ustart fields reads)).
Proof.
  intros fields reads q x H. cbn in H. apply in_map_iff in H as (y & E & _). injection E as <- _. discriminate.
Qed.
Lemma ustart_in : forall fields reads q x, In (q, x) (u_vars (ustart fields reads)) <-> exists v, q = [v] /\ In (v, x) fields.
Proof.
  intros fields reads q x. cbn. rewrite in_map_iff. split.
  - intros ([v y] & E & H). injection E as <- <-. eauto.
  - intros (v & -> & H). exists (v, x). auto.
Qed.
Lemma ustart_read : forall fields reads n v ch, nth_error reads n = Some (v, ch) ->
  nth_error (u_reads (ustart fields reads)) n = Some (mkRead [v] ch true).
Proof. intros fields reads n v ch H. cbn. rewrite nth_error_map, H. reflexivity. Qed.

Lemma ustart_plain : forall fields reads v ch, NoDup (map fst fields) -> plain_read fields (v, ch) ->
  plain_state (u_vars (ustart fields reads)) v ch (mkRead [v] ch true).
Proof.
  intros fields reads v ch N (r & H). cbn [fst] in H. split; [reflexivity|]. split.
  - exists r. apply ustart_in. eauto.
  - intros x Hx. apply ustart_in in Hx as (w & E & Hx). injection E as <-.
    now rewrite (nodup_field fields v x (r, TBase) N Hx H).
Qed.
Lemma ustart_fresh : forall fields reads v ch t, NoDup (map fst fields) -> component_read fields (v, ch) t ->
  fresh_read (u_vars (ustart fields reads)) v ch t (mkRead [v] ch true).
Proof.
  intros fields reads v ch t N (r & fs & f & rf & k & views & outer & H & Nd & E & Vo & Hf). cbn [fst snd] in H, E.
  split; [reflexivity|]. exists r, fs, f, rf, k, views, outer. repeat split; try assumption.
  - apply ustart_in. eauto.
  - intros x Hx. apply ustart_in in Hx as (w & Ew & Hx). injection Ew as <-. exact (nodup_field fields v x _ N Hx H).
  - intros q x Hq Hh. apply ustart_in in Hq as (w & -> & _). cbn in Hh. congruence.
Qed.

Lemma unpacked_plain : forall fields reads ps st n v ch, NoDup (map fst fields) ->
  unpack_all ps (ustart fields reads) = Some st -> nth_error reads n = Some (v, ch) -> plain_read fields (v, ch) ->
  nth_error (u_reads st) n = Some (mkRead [v] ch true) /\ exists r, In ([v], (r, TBase)) (u_vars st).
Proof.
  intros fields reads ps st n v ch N E Hn Hp.
  destruct (unpack_all_inv ps _ st (ustart_ok fields reads) E) as (_ & H).
  destruct (H n _ (ustart_read fields reads n v ch Hn)) as (rd & Hr & A & _).
  destruct (A v ch (ustart_plain fields reads v ch N Hp)) as (-> & B & _). auto.
Qed.

Lemma unpacked_component : forall fields reads ps st n v ch t, NoDup (map fst fields) ->
  unpack_all ps (ustart fields reads) = Some st -> no_records st ->
  nth_error reads n = Some (v, ch) -> component_read fields (v, ch) t ->
  exists rd, nth_error (u_reads st) n = Some rd /\ done_read (u_vars st) v ch t rd.
Proof.
  intros fields reads ps st n v ch t N E Nr Hn Hc.
  destruct (unpack_all_inv ps _ st (ustart_ok fields reads) E) as (_ & H).
  destruct (H n _ (ustart_read fields reads n v ch Hn)) as (rd & Hr & _ & B).
  destruct (B (v, ch) t (or_introl (ustart_fresh fields reads v ch t N Hc))) as [F|D]; [|eauto].
  exfalso. destruct F as (_ & r & fs & f & rf & k & views & outer & Hin & _). specialize (Nr _ _ _ Hin). discriminate.
Qed.
