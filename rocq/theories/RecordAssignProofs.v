From Coq Require Import List Arith Bool ZArith Lia.
Import ListNotations.
From Verif Require Import RecordRefModel RecordRefSpec RecordRefProofs RecordAssignModel RecordAssignSpec.

Lemma picked_scalar ss r i : picked ss r [] i -> length ss = r.
Proof.
  remember [] as j eqn:Ej. intros H. induction H; cbn [length]; subst; auto; try discriminate.
Qed.

Lemma picked_join ss r j i ss' r' j' i' :
  picked ss r j i -> length ss = r -> picked ss' r' j' i' ->
  picked (ss ++ ss') (r + r') (j ++ j') (i ++ i').
Proof.
  intros H. induction H; cbn [length app]; intros L H'.
  - subst. destruct j; [exact H' | discriminate].
  - constructor. apply IHpicked; [lia | exact H'].
  - constructor. apply IHpicked; [lia | exact H'].
Qed.

Lemma picked_colons r j : length j = r -> picked (repeat colon r) r j j.
Proof.
  revert j. induction r; intros [|x j]; cbn; intros L; try discriminate.
  - constructor. reflexivity.
  - unfold colon. replace (x :: j) with ((0 + x * 1)%Z :: j) at 2 by (f_equal; lia).
    constructor. apply IHr. lia.
Qed.

Lemma picked_full ss r j i :
  picked ss r j i -> picked (full_rank r ss) r j i /\ length (full_rank r ss) = r.
Proof.
  unfold full_rank. intros H. split.
  - induction H; cbn [length app].
    + rewrite Nat.sub_0_r. apply picked_colons. exact H.
    + constructor. exact IHpicked.
    + constructor. exact IHpicked.
  - rewrite app_length, repeat_length.
    enough (length ss <= r) by lia. induction H; cbn [length]; lia.
Qed.

Lemma comp_subs_two s0 s1 rest :
  comp_subs (s0 ++ s1) (length s0 :: length s1 :: rest) 0 = Some s0 /\
  comp_subs (s0 ++ s1) (length s0 :: length s1 :: rest) 1 = Some s1.
Proof.
  unfold comp_subs. destruct (s0 ++ s1) as [|x l] eqn:E.
  - apply app_eq_nil in E. destruct E; subst. auto.
  - rewrite <- E. cbn [nth_error firstn list_sum fold_right]. split.
    + destruct s0 as [|a s0]; [reflexivity|]. cbn [length]. cbn [Nat.add skipn].
      change (S (length s0)) with (length (a :: s0)).
      replace (length (a :: s0) <=? length ((a :: s0) ++ s1)) with true
        by (symmetry; apply Nat.leb_le; rewrite app_length; lia).
      rewrite firstn_app, Nat.sub_diag, firstn_all. cbn [firstn]. now rewrite app_nil_r.
    + destruct s1 as [|a s1]; [reflexivity|]. cbn [length]. rewrite Nat.add_0_r.
      change (S (length s1)) with (length (a :: s1)).
      replace (length s0 + length (a :: s1) <=? length (s0 ++ a :: s1)) with true
        by (symmetry; apply Nat.leb_le; rewrite app_length; lia).
      f_equal. rewrite skipn_app, skipn_all, Nat.sub_diag. cbn [skipn app]. apply firstn_all.
Qed.

Lemma comp_subs_2 s0 s1 s2 rest :
  comp_subs (s0 ++ s1 ++ s2) (length s0 :: length s1 :: length s2 :: rest) 2 = Some s2.
Proof.
  unfold comp_subs. destruct (s0 ++ s1 ++ s2) as [|x l] eqn:E.
  - apply app_eq_nil in E. destruct E as [? E]; apply app_eq_nil in E. destruct E; subst. auto.
  - rewrite <- E. cbn [nth_error firstn list_sum fold_right].
    destruct s2 as [|a s2]; [reflexivity|]. cbn [length]. rewrite Nat.add_0_r.
    change (S (length s2)) with (length (a :: s2)).
    replace (length s0 + length s1 + length (a :: s2) <=? length (s0 ++ s1 ++ a :: s2)) with true
      by (symmetry; apply Nat.leb_le; rewrite !app_length; lia).
    f_equal. rewrite app_assoc, <- app_length, skipn_app, skipn_all, Nat.sub_diag.
    cbn [skipn app]. apply firstn_all.
Qed.

Lemma comp_subs_01 s0 s1 s2 rest :
  comp_subs (s0 ++ s1 ++ s2) (length s0 :: length s1 :: length s2 :: rest) 0 = Some s0 /\
  comp_subs (s0 ++ s1 ++ s2) (length s0 :: length s1 :: length s2 :: rest) 1 = Some s1.
Proof.
  unfold comp_subs. destruct (s0 ++ s1 ++ s2) as [|x l] eqn:E.
  - apply app_eq_nil in E. destruct E as [? E]; apply app_eq_nil in E. destruct E; subst. auto.
  - rewrite <- E. cbn [nth_error firstn list_sum fold_right]. split.
    + destruct s0 as [|a s0]; [reflexivity|]. cbn [length]. cbn [Nat.add skipn].
      change (S (length s0)) with (length (a :: s0)).
      replace (length (a :: s0) <=? length ((a :: s0) ++ s1 ++ s2)) with true
        by (symmetry; apply Nat.leb_le; rewrite app_length; lia).
      rewrite firstn_app, Nat.sub_diag, firstn_all. cbn [firstn]. now rewrite app_nil_r.
    + destruct s1 as [|a s1]; [reflexivity|]. cbn [length]. rewrite Nat.add_0_r.
      change (S (length s1)) with (length (a :: s1)).
      replace (length s0 + length (a :: s1) <=? length (s0 ++ (a :: s1) ++ s2)) with true
        by (symmetry; apply Nat.leb_le; rewrite !app_length; lia).
      f_equal. rewrite skipn_app, skipn_all, Nat.sub_diag. cbn [skipn].
      change (@nil sub ++ ((a :: s1) ++ s2)) with ((a :: s1) ++ s2).
      rewrite firstn_app, Nat.sub_diag, firstn_all. cbn [firstn]. now rewrite app_nil_r.
Qed.

Lemma names_inv t f ss es j p i t'' :
  names t ((f, ss) :: es) j p i t'' ->
  exists r t' j0 i0 j' p' i', field t f = Some (r, t') /\ picked ss r j0 i0 /\
    names t' es j' p' i' t'' /\ j = j0 ++ j' /\ p = f :: p' /\ i = i0 ++ i'.
Proof. intros H; inversion H; subst. repeat eexists; eauto. Qed.

Lemma names_inv_nil t j p i t'' : names t [] j p i t'' -> j = [] /\ p = [] /\ i = [] /\ t'' = t.
Proof. intros H; inversion H; auto. Qed.

(** ** A component of a record variable *)
Lemma component_write vars v s0 f s1 x j p i t :
  names vars [(v, s0); (f, s1)] j p i t -> length j = v_rank x ->
  exists a w, lower_assign [(v, s0); (f, s1)] x = Some a /\ write vars a = Some w /\
    stores w (total_rank vars [(v, s0); (f, s1)]) j p i.
Proof.
  intros N L.
  apply names_inv in N. destruct N as (r & t1 & j0 & i0 & j' & p' & i' & F & P & N & -> & -> & ->).
  apply names_inv in N. destruct N as (r1 & t2 & j1 & i1 & j2 & p2 & i2 & F1 & P1 & N & -> & -> & ->).
  apply names_inv_nil in N. destruct N as (-> & -> & -> & _).
  rewrite !app_nil_r in *. 
  cbn [total_rank fst]. rewrite F, F1, Nat.add_0_r.
  eexists. cbn [lower_assign map fst snd concat app]. rewrite app_nil_r.
  enough (Q : exists w, write vars (SetComp [v] [f] (s0 ++ s1) [length s0; length s1] x) = Some w /\
    stores w (r + r1) (j0 ++ j1) [v; f] (i0 ++ i1))
    by (destruct Q as (w & Q1 & Q2); exists w; split; [reflexivity|]; split; assumption).
  cbn [write]. rewrite F. cbn [finish]. rewrite F1.
  destruct (s0 ++ s1) as [|y l] eqn:E.
  - eexists. split; [reflexivity|]. split; [reflexivity|]. cbn [snd].
    apply app_eq_nil in E. destruct E; subst. inversion P; subst; inversion P1; subst.
    constructor. apply app_length.
  - destruct (v_rank x) as [|k] eqn:K.
    + cbn [Nat.eqb]. eexists. split; [reflexivity|]. split; [reflexivity|]. cbn [snd]. rewrite <- E.
      assert (j0 = []) by (destruct j0; [reflexivity | cbn in L; lia]). subst j0.
      assert (j1 = []) by (destruct j1; [reflexivity | cbn in L; lia]). subst j1.
      apply (picked_join s0 r [] i0 s1 r1 [] i1); [exact P | eapply picked_scalar; exact P | exact P1].
    + cbn [Nat.eqb]. unfold all_subs.
      destruct (comp_subs_two s0 s1 []) as [C0 C1].
      rewrite <- E. cbn [seq map length]. rewrite C0, C1. cbn [opt_concat option_map].
      eexists. split; [reflexivity|]. split; [reflexivity|]. cbn [snd]. rewrite app_nil_r.
      destruct (picked_full _ _ _ _ P) as [P' L'].
      apply picked_join; assumption.
Qed.

(** ** A scalar in a record of a record *)
Lemma scalar_write vars v s0 f s1 g s2 x p i t :
  forall j, j = [] -> names vars [(v, s0); (f, s1); (g, s2)] j p i t -> v_rank x = 0 ->
  exists a w, lower_assign [(v, s0); (f, s1); (g, s2)] x = Some a /\ write vars a = Some w /\
    stores w (total_rank vars [(v, s0); (f, s1); (g, s2)]) [] p i.
Proof.
  intros j Ej N K.
  apply names_inv in N. destruct N as (r & t1 & j0 & i0 & j' & p' & i' & F & P & N & Hj & -> & ->).
  apply names_inv in N. destruct N as (r1 & t2 & j1 & i1 & j2 & p2 & i2 & F1 & P1 & N & -> & -> & ->).
  apply names_inv in N. destruct N as (r2 & t3 & j3 & i3 & j4 & p4 & i4 & F2 & P2 & N & -> & -> & ->).
  apply names_inv_nil in N. destruct N as (-> & -> & -> & _).
  subst j. rewrite !app_nil_r in *. symmetry in Hj. apply app_eq_nil in Hj. destruct Hj as [-> Hj].
  apply app_eq_nil in Hj. destruct Hj as [-> ->].
  pose proof (picked_scalar _ _ _ P) as L0. pose proof (picked_scalar _ _ _ P1) as L1.
  pose proof (picked_scalar _ _ _ P2) as L2.
  cbn [total_rank fst]. rewrite F, F1, F2, Nat.add_0_r.
  destruct (comp_subs_01 s0 s1 s2 []) as [C0 C1]. pose proof (comp_subs_2 s0 s1 s2 []) as C2.
  eexists. cbn [lower_assign map fst snd concat app]. rewrite app_nil_r.
  enough (Q : exists w, write vars (SetComp [v] [f; g] (s0 ++ s1 ++ s2) [length s0; length s1; length s2] x) = Some w /\
    stores w (r + (r1 + r2)) [] [v; f; g] (i0 ++ i1 ++ i3))
    by (destruct Q as (w & Q1 & Q2); exists w; split; [reflexivity|]; split; assumption).
  cbn [write]. rewrite F. cbn [finish]. rewrite F1, F2.
  unfold all_subs. cbn [seq map length]. rewrite C0, C1, C2. cbn [opt_concat option_map].
  unfold full_rank. rewrite L0, Nat.sub_diag. cbn [repeat]. rewrite !app_nil_r, K. cbn [Nat.eqb].
  assert (Q : picked (s0 ++ s1 ++ s2) (r + (r1 + r2)) [] (i0 ++ i1 ++ i3)).
  { apply (picked_join s0 r [] i0 (s1 ++ s2) (r1 + r2) [] (i1 ++ i3)); auto.
    apply (picked_join s1 r1 [] i1 s2 r2 [] i3); auto. }
  destruct (s0 ++ s1 ++ s2) as [|y l] eqn:E; eexists; (split; [reflexivity|]); (split; [reflexivity|]); exact Q.
Qed.

(** ** Any depth, without subscripts *)
Lemma all_subs_nil rank amounts n : all_subs rank [] amounts n = Some (repeat colon rank).
Proof.
  unfold all_subs. cbn [comp_subs]. unfold full_rank. cbn [app length]. rewrite Nat.sub_0_r.
  enough (E : forall l, opt_concat (map (comp_subs [] amounts) l) = Some []).
  { rewrite E. cbn [option_map]. now rewrite app_nil_r. }
  induction l; cbn [map opt_concat comp_subs]; [reflexivity|]. rewrite IHl. reflexivity.
Qed.

Lemma plain_write x : forall es t root amounts j p i t',
  es <> [] -> (forall e, In e es -> snd e = []) -> names t es j p i t' ->
  total_rank t es = 0 ->
  finish 0 t root (map fst es) [] amounts x = Some (root ++ p, []).
Proof.
  induction es as [|[f ss] es IH]; intros t root amounts j p i t' NE S0 N T; [congruence|].
  apply names_inv in N. destruct N as (r & t1 & j0 & i0 & j' & p' & i' & F & P & N & -> & -> & ->).
  cbn [total_rank fst] in T. rewrite F in T. cbn [map fst finish]. rewrite F.
  destruct es as [|e es].
  - apply names_inv_nil in N. destruct N as (_ & -> & _). reflexivity.
  - change (map fst (e :: es)) with (fst e :: map fst es) at 1. cbv iota.
    rewrite all_subs_nil. cbn [repeat].
    replace (0 + r) with 0 by lia.
    erewrite (IH t1); [rewrite <- app_assoc; reflexivity | discriminate | | exact N | lia].
    intros; apply S0; now right.
Qed.

(** ** Assignments of records *)
Lemma flat_record vars v r fs x (Ev : field vars v = Some (r, TRec fs)) :
  NoDup (map fst fs) -> flat fs -> v_ty x = TRec fs -> v_rank x = 0 ->
  exists l, unpack_assign (SetVar v [] x) = Some l /\
    (forall a, In a l -> exists f rf, In (f, (rf, TBase)) fs /\ write vars a = Some ([v; f], []) /\
       (exists root path ss am, a = SetComp root path ss am (mkV (v_comps x ++ [f]) rf TBase))) /\
    (forall f rf t, In (f, (rf, t)) fs -> exists a, In a l /\ write vars a = Some ([v; f], [])).
Proof.
  intros ND FL TY K. cbn [unpack_assign]. rewrite TY, K. cbn [repeat].
  assert (W : forall f rf t, In (f, (rf, t)) fs ->
    write vars (SetComp [v] [f] [] [0] (comp_value x (f, (rf, t)))) = Some ([v; f], [])).
  { intros f rf t Hin. cbn [write]. rewrite Ev. cbn [finish field].
    destruct (find (fun y => fst y =? f) fs) as [[f' [r' t']]|] eqn:E; [reflexivity|].
    apply (find_none _ _ E) in Hin. cbn in Hin. rewrite Nat.eqb_refl in Hin. discriminate. }
  eexists; split; [reflexivity|]. split.
  - intros a Ha. apply in_map_iff in Ha. destruct Ha as [[f [rf t]] [<- Hin]].
    pose proof (FL _ _ _ Hin). subst t. exists f, rf. split; [exact Hin|]. split; [apply W; exact Hin|].
    cbn [fst]. repeat eexists.
  - intros f rf t Hin. eexists. split; [apply in_map_iff; exists (f, (rf, t)); split; [reflexivity | exact Hin]|].
    cbn [fst]. apply W; exact Hin.
Qed.
