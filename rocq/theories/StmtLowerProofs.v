(** * The operations run as the statements do (proofs) *)
From Coq Require Import ZArith List Bool Lia.
From Verif Require Import Result StmtModel StmtSpec StmtProofs.
Import ListNotations.
Local Open Scope Z_scope.

Scheme stmt_ind2 := Induction for stmt Sort Prop
  with block_ind2 := Induction for block Sort Prop
  with alt_ind2 := Induction for alt Sort Prop.
Combined Scheme stmt_mut from stmt_ind2, block_ind2, alt_ind2.

(** ** Lowering succeeds *)

Lemma lookup_index_in sc x : In x (map fst sc) -> exists k, lookup_index sc x = Some k.
Proof.
  induction sc as [|[y k] sc IH]; cbn; [intros []|]. intros H.
  destruct (Nat.eqb_spec x y); [eauto|]. destruct H; [congruence|auto].
Qed.

Lemma lookup_index_none sc x : ~ In x (map fst sc) -> lookup_index sc x = None.
Proof.
  induction sc as [|[y k] sc IH]; cbn; [reflexivity|]. intros H.
  destruct (Nat.eqb_spec x y); [subst; tauto|tauto].
Qed.

Lemma lookup_name_ok dec sc x : In x (map fst sc) \/ In x dec -> exists r, lookup_name dec sc x = Ok r.
Proof.
  intros H. unfold lookup_name. destruct (lookup_index sc x) as [k|] eqn:E; [eauto|].
  destruct H as [H|H].
  - destruct (lookup_index_in _ _ H) as [k Hk]. congruence.
  - assert (existsb (Nat.eqb x) dec = true) as ->
      by (apply existsb_exists; exists x; rewrite Nat.eqb_refl; auto). eauto.
Qed.

Lemma lower_exp_ok dec sc e : names_ok dec (map fst sc) e -> exists le, lower_exp dec sc e = Ok le.
Proof.
  unfold names_ok, lower_exp. intros H.
  assert (exists rs, lookup_names dec sc (reads e) = Ok rs) as [rs ->].
  { induction (reads e) as [|x l IH]; cbn; [eauto|].
    destruct (lookup_name_ok dec sc x (H x (or_introl eq_refl))) as [r ->].
    destruct IH as [rs ->]; [intros y Hy; apply H; now right|]. cbn. eauto. }
  cbn. eauto.
Qed.

(** ** Sequences *)

Lemma oapp_nil o : oapp o ONil = o.
Proof. induction o; cbn; congruence. Qed.

Lemma oapp_assoc a b c : oapp (oapp a b) c = oapp a (oapp b c).
Proof. induction a; cbn; congruence. Qed.

(** No terminator among the operations of the block itself. *)
Fixpoint plain (o : ops) : Prop :=
  match o with
  | ONil => True
  | OSet _ _ r | OStore _ _ r | OIf _ _ _ _ r | OFor _ _ _ _ r | OWhile _ _ r => plain r
  | OBreak _ | OReturn _ | OYield _ => False
  end.

Lemma plain_ends o r : plain o -> ends_in_terminator (oapp o r) = ends_in_terminator r.
Proof. induction o; cbn; intros H; try contradiction; auto. Qed.

Lemma plain_placed o r : plain o -> placed (oapp o r) = placed o && placed r.
Proof.
  induction o as [|x e q IH|k e q IH|c th IHt has el IHe q IH|k hi b IHb st q IH
                 |c b IHb q IH|q IH|q IH|q IH];
    cbn; intros H; try contradiction; rewrite ?IH by auto; rewrite ?andb_assoc; auto.
Qed.

Definition is_leave (s : stmt) : Prop := s = SBreak \/ s = SReturn.

Lemma leave_dec s : is_leave s \/ ~ is_leave s.
Proof.
  unfold is_leave. destruct s; try (right; intros [H|H]; discriminate H); left; auto.
Qed.

(** ** What lowering produces *)

Definition L_stmt (s : stmt) : Prop := forall dec sc lp k,
  covered_stmt dec (map fst sc) lp s ->
  exists os k', lower_stmt dec sc k s = Ok (os, k') /\ (k <= k')%nat /\
    placed os = true /\ (~ is_leave s -> plain os) /\
    forall fb r, covered_ops lp fb r -> covered_ops lp fb (oapp os r).

Definition L_block (b : block) : Prop := forall dec sc lp k,
  covered_block dec (map fst sc) lp b ->
  exists os k', lower_block dec sc k b = Ok (os, k') /\ (k <= k')%nat /\
    placed os = true /\ (ends_in_terminator os = true \/ plain os) /\
    (leaves b -> ends_in_terminator os = true) /\
    (straight b -> only_sets os) /\
    forall fb r, covered_ops lp fb r -> covered_ops lp fb (oapp os r).

Definition L_alt (a : alt) : Prop := forall dec sc lp k,
  covered_alt dec (map fst sc) lp a ->
  exists has os k', lower_alt dec sc k a = Ok (has, os, k') /\ (k <= k')%nat /\
    placed os = true /\ (has = true <-> a <> ANone) /\ (has = false -> os = ONil) /\
    covered_ops lp false os.

Lemma covered_nil lp fb o : (forall r, covered_ops lp fb r -> covered_ops lp fb (oapp o r)) ->
  covered_ops lp fb o.
Proof. intros H. rewrite <- (oapp_nil o). apply H. exact I. Qed.

Lemma add_yield_placed os : placed os = true -> ends_in_terminator os = true \/ plain os ->
  placed (add_yield os) = true.
Proof.
  intros HP H. unfold add_yield. destruct (ends_in_terminator os) eqn:E; [exact HP|].
  destruct H as [H|H]; [congruence|]. rewrite plain_placed, HP by exact H. reflexivity.
Qed.

Lemma add_yield_covered os : (forall fb r, covered_ops true fb r -> covered_ops true fb (oapp os r)) ->
  covered_ops true true (add_yield os).
Proof.
  intros H. unfold add_yield. destruct (ends_in_terminator os).
  - apply covered_nil. apply H.
  - apply H. cbn. auto.
Qed.

Theorem lowered : (forall s, L_stmt s) /\ (forall b, L_block b) /\ (forall a, L_alt a).
Proof.
  apply stmt_mut.
  - (* assign *)
    intros x e dec sc lp k (H1 & H2 & H3). cbn [lower_stmt].
    destruct (lower_exp_ok _ _ _ H3) as [le ->]. cbn [bind].
    unfold lookup_name. rewrite (lookup_index_none _ _ H2).
    assert (existsb (Nat.eqb x) dec = true) as ->
      by (apply existsb_exists; exists x; rewrite Nat.eqb_refl; auto). cbn [bind].
    eexists _, _. split; [reflexivity|]. split; [lia|]. split; [reflexivity|].
    split; [cbn; auto|]. intros fb r Hr. exact Hr.
  - (* if *)
    intros c th IHt el IHe dec sc lp k (H1 & H2 & H3 & H4). cbn [lower_stmt].
    destruct (lower_exp_ok _ _ _ H1) as [le ->]. cbn [bind].
    destruct (IHt _ _ _ k H2) as (ot & k1 & -> & L1 & P1 & _ & _ & S1 & C1). cbn [bind fst snd].
    destruct (IHe _ _ _ k1 H3) as (has & oe & k2 & -> & L2 & P2 & A2 & N2 & C2).
    cbn [bind fst snd].
    eexists _, _. split; [reflexivity|]. split; [lia|].
    split; [cbn; rewrite P1, P2; reflexivity|]. split; [cbn; auto|].
    intros fb r Hr. cbn [oapp covered_ops]. split; [|exact Hr].
    destruct has.
    + split; [apply S1, H4, A2; reflexivity|exact C2].
    + apply covered_nil. apply C1.
  - (* for *)
    intros l b IHb dec sc lp k (x & lo & hi & -> & H1 & H2 & _ & H3). cbn [lower_stmt].
    unfold lower_range.
    destruct (lower_exp_ok _ _ _ H1) as [llo ->]. cbn [bind].
    destruct (lower_exp_ok _ _ _ H2) as [lhi ->]. cbn [bind fst snd].
    destruct (IHb dec ((x, k) :: sc) true (S k) H3) as (ob & k1 & -> & L1 & P1 & E1 & _ & _ & C1).
    cbn [bind fst snd].
    eexists _, _. split; [reflexivity|]. split; [lia|].
    split; [cbn; rewrite add_yield_placed by assumption; reflexivity|]. split; [cbn; auto|].
    intros fb r Hr. cbn [oapp covered_ops]. split; [|exact Hr].
    apply add_yield_covered. exact C1.
  - (* while *)
    intros c b IHb dec sc lp k (H1 & H2 & H3). cbn [lower_stmt].
    destruct (lower_exp_ok _ _ _ H1) as [lc ->]. cbn [bind].
    destruct (IHb dec sc true k H2) as (ob & k1 & -> & L1 & P1 & E1 & V1 & _ & C1).
    cbn [bind fst snd].
    eexists _, _. split; [reflexivity|]. split; [lia|].
    unfold add_yield. rewrite (V1 H3).
    split; [cbn; rewrite P1; reflexivity|]. split; [cbn; auto|].
    intros fb r Hr. cbn [oapp covered_ops]. split; [|exact Hr].
    apply covered_nil. apply C1.
  - (* break *)
    intros dec sc lp k H. cbn in H. subst lp. cbn. eexists _, _. split; [reflexivity|].
    split; [lia|]. split; [reflexivity|]. split.
    + intros Hn. exfalso. apply Hn. now left.
    + intros fb r Hr. cbn. auto.
  - (* return *)
    intros dec sc lp k _. cbn. eexists _, _. split; [reflexivity|].
    split; [lia|]. split; [reflexivity|]. split.
    + intros Hn. exfalso. apply Hn. now right.
    + intros fb r Hr. cbn. auto.
  - (* nil *)
    intros dec sc lp k _. cbn. eexists _, _. split; [reflexivity|].
    split; [lia|]. split; [reflexivity|]. split; [right; exact I|].
    split; [intros []|]. split; [intros _; exact I|]. auto.
  - (* cons *)
    intros s IHs b IHb dec sc lp k (H1 & H2 & H3). cbn [lower_block].
    destruct (IHs _ _ _ k H1) as (os & k1 & Es & L1 & P1 & N1 & C1). rewrite Es. cbn [bind fst snd].
    destruct (IHb _ _ _ k1 H2) as (ob & k2 & Eb & L2 & P2 & E2 & V2 & S2 & C2). rewrite Eb.
    cbn [bind fst snd].
    eexists _, _. split; [reflexivity|]. split; [lia|].
    assert (HC : forall fb r, covered_ops lp fb r -> covered_ops lp fb (oapp (oapp os ob) r)).
    { intros fb r Hr. rewrite oapp_assoc. auto. }
    destruct (leave_dec s) as [Hl|Hn].
    + pose proof (H3 Hl) as ->. cbn in Eb. injection Eb as <- <-. rewrite oapp_nil in *.
      split; [exact P1|].
      assert (ends_in_terminator os = true).
      { destruct Hl as [-> | ->]; cbn in Es; injection Es as <- _; reflexivity. }
      split; [now left|]. split; [auto|]. split; [|exact HC].
      destruct Hl as [-> | ->]; intros [].
    + specialize (N1 Hn). rewrite plain_placed, P1, P2, plain_ends by exact N1.
      split; [reflexivity|]. split.
      { destruct E2 as [E2|E2]; [now left|right].
        clear - N1 E2. revert N1. induction os; cbn; intros H; try contradiction; auto. }
      split; [|split; [|exact HC]].
      * intros Hv. apply V2. cbn [leaves] in Hv.
        destruct s; try exact Hv; exfalso; apply Hn; [now left|now right].
      * intros Hst. cbn [straight] in Hst. destruct s; try contradiction.
        cbn [lower_stmt] in Es. okbind Es. apply bind_ok in Es. destruct Es as (rf & E1 & Es).
        destruct rf; [|discriminate]. injection Es as <- <-. cbn. auto.
  - (* no alternative *)
    intros dec sc lp k _. cbn. eexists _, _, _. split; [reflexivity|].
    split; [lia|]. split; [reflexivity|]. split; [split; congruence|]. split; [auto|exact I].
  - (* else *)
    intros b IHb dec sc lp k H. cbn [lower_alt].
    destruct (IHb _ _ _ k H) as (ob & k1 & -> & L1 & P1 & _ & _ & _ & C1). cbn [bind fst snd].
    eexists _, _, _. split; [reflexivity|].
    split; [lia|]. split; [exact P1|]. split; [split; [discriminate|auto]|].
    split; [discriminate|]. apply covered_nil. apply C1.
  - (* elseif *)
    intros c b IHb a IHa dec sc lp k (H1 & H2 & H3 & H4). cbn [lower_alt].
    destruct (lower_exp_ok _ _ _ H1) as [le ->]. cbn [bind].
    destruct (IHb _ _ _ k H2) as (ot & k1 & -> & L1 & P1 & _ & _ & S1 & C1). cbn [bind fst snd].
    destruct (IHa _ _ _ k1 H3) as (has & oe & k2 & -> & L2 & P2 & A2 & N2 & C2).
    cbn [bind fst snd].
    eexists _, _, _. split; [reflexivity|]. split; [lia|].
    split; [cbn; rewrite P1, P2; reflexivity|].
    split; [split; [discriminate|auto]|]. split; [discriminate|].
    cbn [covered_ops]. split; [|exact I]. destruct has.
    + split; [apply S1, H4, A2; reflexivity|exact C2].
    + apply covered_nil. apply C1.
Qed.

(** ** States *)

(** The indices of the enclosing loops are in their storage. *)
Definition held (s : istate) (sc : list (nat * nat)) (ix : indices) : Prop :=
  Forall2 (fun a b => fst a = fst b /\ slots s (snd a) = snd b) sc ix.

Definition below (k : nat) (sc : list (nat * nat)) : Prop := Forall (fun a => (snd a < k)%nat) sc.

Definition same_below (k : nat) (s s' : istate) : Prop :=
  forall j, (j < k)%nat -> slots s' j = slots s j.

Lemma held_names s sc ix : held s sc ix -> map fst sc = map fst ix.
Proof. induction 1 as [|a b sc ix [H _] HF IH]; cbn; congruence. Qed.

Lemma held_keep s s' sc ix k : held s sc ix -> below k sc -> same_below k s s' -> held s' sc ix.
Proof.
  intros H HB HS. unfold held in *. induction H as [|a b sc ix [H1 H2] HF IH]; [constructor|].
  inversion HB; subst. constructor; [|auto]. split; [exact H1|]. rewrite HS; auto.
Qed.

Lemma below_mono k k' sc : (k <= k')%nat -> below k sc -> below k' sc.
Proof. intros L. apply Forall_impl. intros a Ha. lia. Qed.

Lemma same_refl k s : same_below k s s. Proof. intros j _. reflexivity. Qed.

Lemma same_trans k s1 s2 s3 : same_below k s1 s2 -> same_below k s2 s3 -> same_below k s1 s3.
Proof. intros H1 H2 j Hj. rewrite H2, H1; auto. Qed.

Lemma same_mono k k' s s' : (k <= k')%nat -> same_below k' s s' -> same_below k s s'.
Proof. intros L H j Hj. apply H. lia. Qed.

Lemma lookup_name_read dec sc ix s x r : held s sc ix -> lookup_name dec sc x = Ok r ->
  read s r = name_value ix (vars s) x.
Proof.
  intros H. unfold lookup_name. induction H as [|[y k] [z v] sc ix [H1 H2] HF IH].
  - cbn. destruct (existsb (Nat.eqb x) dec); [|discriminate]. now intros [= <-].
  - cbn [fst snd] in *. subst z. cbn [lookup_index name_value].
    destruct (Nat.eqb x y); [|exact IH]. intros [= <-]. exact H2.
Qed.

Lemma lower_exp_value dec sc ix s e le : held s sc ix -> lower_exp dec sc e = Ok le ->
  leval s le = value ix (vars s) e.
Proof.
  intros H. unfold lower_exp. intros HL. apply bind_ok in HL. destruct HL as (rs & E & HL).
  injection HL as <-. unfold leval, value. cbn [lvalue lreads]. f_equal.
  revert rs E. induction (reads e) as [|x l IH]; intros rs E; cbn in E.
  - injection E as <-. reflexivity.
  - apply bind_ok in E. destruct E as (r & E1 & E). apply bind_ok in E.
    destruct E as (rs' & E2 & E). injection E as <-. cbn.
    rewrite (lookup_name_read _ _ _ _ _ _ H E1). f_equal. now apply IH.
Qed.

Lemma name_value_frame ix st st' x :
  (~ In x (map fst ix) -> st x = st' x) -> name_value ix st x = name_value ix st' x.
Proof.
  induction ix as [|[y v] ix IH]; cbn; intros H; [apply H; auto|].
  destruct (Nat.eqb_spec x y); [reflexivity|]. apply IH. intros Hn. apply H. intros [E|E]; auto.
Qed.

Lemma value_frame ix st st' e :
  (forall y, In y (reads e) -> ~ In y (map fst ix) -> st y = st' y) ->
  value ix st e = value ix st' e.
Proof.
  intros H. unfold value. f_equal. apply map_ext_in. intros x Hx.
  apply name_value_frame. auto.
Qed.

(** ** Only assigned variables change *)

Scheme ex_stmt_ind := Induction for exec_stmt Sort Prop
  with ex_block_ind := Induction for exec_block Sort Prop
  with ex_alt_ind := Induction for exec_alt Sort Prop
  with ex_for_ind := Induction for exec_for Sort Prop
  with ex_iter_ind := Induction for exec_iter Sort Prop.
Combined Scheme exec_mut from ex_stmt_ind, ex_block_ind, ex_alt_ind, ex_for_ind, ex_iter_ind.

Lemma exec_frame :
  (forall ix st s st' o, exec_stmt ix st s st' o ->
     forall y, ~ In y (assigned s) -> st' y = st y) /\
  (forall ix st b st' o, exec_block ix st b st' o ->
     forall y, ~ In y (assigned_block b) -> st' y = st y) /\
  (forall ix st a st' o, exec_alt ix st a st' o ->
     forall y, ~ In y (assigned_alt a) -> st' y = st y) /\
  (forall ix st l b st' o, exec_for ix st l b st' o ->
     forall y, ~ In y (assigned_block b) -> st' y = st y) /\
  (forall ix st x vs l b st' o, exec_iter ix st x vs l b st' o ->
     forall y, ~ In y (assigned_block b) -> st' y = st y).
Proof.
  apply exec_mut; intros; cbn [assigned assigned_block assigned_alt] in *;
    repeat match goal with H : ~ In _ (_ ++ _) |- _ => rewrite in_app_iff in H end;
    try reflexivity; try solve [auto].
  - unfold set. destruct (Nat.eqb_spec y x); [subst; cbn in *; tauto|reflexivity].
  - etransitivity; [|apply H]; auto.
  - etransitivity; [apply H0|apply H]; tauto.
  - etransitivity; [apply H0|apply H]; tauto.
Qed.

Lemma block_frame ix st b st' o y : exec_block ix st b st' o ->
  ~ In y (assigned_block b) -> st' y = st y.
Proof. intros H. exact (proj1 (proj2 exec_frame) _ _ _ _ _ H y). Qed.

(** ** From the statements to the operations *)

Definition F_stmt (s : stmt) : Prop := forall dec sc lp k os k' ix st st' o is,
  covered_stmt dec (map fst ix) lp s -> lower_stmt dec sc k s = Ok (os, k') ->
  exec_stmt ix st s st' o -> held is sc ix -> below k sc -> vars is = st ->
  exists is', vars is' = st' /\ same_below k is is' /\
    forall r s2 o2, run_then is' o r s2 o2 -> run_ops is (oapp os r) s2 o2.

Definition F_block (b : block) : Prop := forall dec sc lp k os k' ix st st' o is,
  covered_block dec (map fst ix) lp b -> lower_block dec sc k b = Ok (os, k') ->
  exec_block ix st b st' o -> held is sc ix -> below k sc -> vars is = st ->
  exists is', vars is' = st' /\ same_below k is is' /\
    forall r s2 o2, run_then is' o r s2 o2 -> run_ops is (oapp os r) s2 o2.

Definition F_alt (a : alt) : Prop := forall dec sc lp k has os k' ix st st' o is,
  covered_alt dec (map fst ix) lp a -> lower_alt dec sc k a = Ok (has, os, k') ->
  exec_alt ix st a st' o -> held is sc ix -> below k sc -> vars is = st ->
  exists is', vars is' = st' /\ same_below k is is' /\
    run_ops is (if has then os else ONil) is' o.

Lemma then_nil s o : run_then s o ONil s o.
Proof. destruct o; [apply R_go; constructor|now apply R_stop|now apply R_stop]. Qed.

Lemma then_yield s o : run_then s o (OYield ONil) s o.
Proof. destruct o; [apply R_go; constructor|now apply R_stop|now apply R_stop]. Qed.

Lemma run_add_yield is os is' o :
  (forall r s2 o2, run_then is' o r s2 o2 -> run_ops is (oapp os r) s2 o2) ->
  run_ops is (add_yield os) is' o.
Proof.
  intros H. unfold add_yield. destruct (ends_in_terminator os).
  - rewrite <- (oapp_nil os). apply H, then_nil.
  - apply H, then_yield.
Qed.

Lemma lower_le_block b dec sc lp k os k' :
  covered_block dec (map fst sc) lp b -> lower_block dec sc k b = Ok (os, k') -> (k <= k')%nat.
Proof.
  intros HC H. destruct (proj1 (proj2 lowered) b dec sc lp k HC) as (os' & k2 & E & L & _).
  rewrite E in H. injection H as _ <-. exact L.
Qed.

Lemma lower_le_stmt b dec sc lp k os k' :
  covered_stmt dec (map fst sc) lp b -> lower_stmt dec sc k b = Ok (os, k') -> (k <= k')%nat.
Proof.
  intros HC H. destruct (proj1 lowered b dec sc lp k HC) as (os' & k2 & E & L & _).
  rewrite E in H. injection H as _ <-. exact L.
Qed.

(** The loop over an index, one value after the other. *)
Lemma for_forward b dec sc ix x k ob k1 lhi hi lp :
  F_block b -> covered_block dec (x :: map fst ix) lp b ->
  lower_block dec ((x, k) :: sc) (S k) b = Ok (ob, k1) ->
  lower_exp dec sc hi = Ok lhi ->
  (forall y, In y (reads hi) -> ~ In y (map fst ix) -> ~ In y (assigned_block b)) ->
  below k sc ->
  forall n i h is st' o,
    value ix (vars is) hi = Some h -> n = Z.to_nat (h - i + 1) ->
    slots is k = i -> held is sc ix ->
    exec_iter ix (vars is) x (progression i 1 n) [] b st' o ->
    exists is', vars is' = st' /\ same_below k is is' /\
      run_for is k lhi (add_yield ob) one_exp is' o /\ o <> Breaking.
Proof.
  intros IHb HC Hlb Hlh Hfr HB.
  induction n as [|n IHn]; intros i h is st' o Hh Hn Hi Hheld HE.
  - cbn [progression] in HE. inversion HE; subst. exists is. split; [reflexivity|].
    split; [apply same_refl|]. split; [|discriminate].
    apply R_for_done with (h := h); [|lia]. now rewrite (lower_exp_value _ _ _ _ _ _ Hheld Hlh).
  - cbn [progression] in HE.
    assert (Hle : slots is k <= h) by lia.
    assert (Hev : leval is lhi = Some h)
      by now rewrite (lower_exp_value _ _ _ _ _ _ Hheld Hlh).
    assert (Hheld' : held is ((x, k) :: sc) ((x, i) :: ix))
      by (constructor; [cbn; auto|exact Hheld]).
    assert (HB' : below (S k) ((x, k) :: sc)).
    { constructor; [cbn; lia|]. eapply below_mono; [|exact HB]. lia. }
    assert (Hstep : forall st1 o1, exec_for ((x, i) :: ix) (vars is) [] b st1 o1 ->
      exists is1, vars is1 = st1 /\ same_below (S k) is is1 /\ run_ops is (add_yield ob) is1 o1 /\
        exec_block ((x, i) :: ix) (vars is) b st1 o1).
    { intros st1 o1 HE1. inversion HE1; subst.
      edestruct IHb with (ix := (x, slots is k) :: ix) (is := is) as (is1 & V1 & S1 & R1);
        [exact HC|exact Hlb|eassumption|exact Hheld'|exact HB'|reflexivity|].
      exists is1. repeat split; [exact V1|exact S1| |assumption].
      now apply run_add_yield. }
    inversion HE; subst; clear HE;
      match goal with H : exec_for _ _ _ _ _ _ |- _ => rename H into HX end.
    + match goal with H : exec_iter _ _ _ _ _ _ _ _ |- _ => rename H into HI end.
      destruct (Hstep _ _ HX) as (is1 & V1 & S1 & R1 & X1). subst st1.
      set (is2 := IS (vars is1) (set (slots is1) k (slots is1 k + 1))).
      assert (Hk : slots is1 k = slots is k) by (apply S1; lia).
      assert (S2 : same_below k is is2).
      { intros j Hj. cbn. unfold set. destruct (Nat.eqb_spec j k); [lia|]. apply S1. lia. }
      destruct (IHn (slots is k + 1) h is2 st' o) as (is' & V' & S' & R' & Ho).
      * rewrite <- Hh. apply value_frame. intros y Hy Hny. cbn.
        apply (block_frame _ _ _ _ _ y X1). now apply Hfr.
      * lia.
      * cbn. unfold set. rewrite Nat.eqb_refl. lia.
      * eapply held_keep; eauto.
      * exact HI.
      * exists is'. split; [exact V'|]. split; [eapply same_trans; eauto|]. split; [|exact Ho].
        eapply R_for_again with (d := 1); [exact Hev|exact Hle|exact R1|reflexivity|exact R'].
    + destruct (Hstep _ _ HX) as (is1 & V1 & S1 & R1 & X1). subst st'.
      exists is1. split; [reflexivity|]. split; [eapply same_mono; [|exact S1]; lia|].
      split; [|discriminate]. eapply R_for_break; eauto.
    + destruct (Hstep _ _ HX) as (is1 & V1 & S1 & R1 & X1). subst st'.
      exists is1. split; [reflexivity|]. split; [eapply same_mono; [|exact S1]; lia|].
      split; [|discriminate]. eapply R_for_return; eauto.
Qed.

Lemma while_forward b dec sc c lc k ob k1 lp :
  F_block b -> lower_block dec sc k b = Ok (ob, k1) -> lower_exp dec sc c = Ok lc -> below k sc ->
  forall ix st s st' o, exec_stmt ix st s st' o -> s = SWhile c b ->
  covered_block dec (map fst ix) lp b ->
  forall is, vars is = st -> held is sc ix ->
    exists is', vars is' = st' /\ same_below k is is' /\
      run_while is lc (add_yield ob) is' o /\ o <> Breaking.
Proof.
  intros IHb Hlb Hlc HB ix st s st' o HE.
  induction HE; intros Es HC is Hv Hheld; try discriminate Es; injection Es as -> ->.
  - exists is. split; [exact Hv|]. split; [apply same_refl|]. split; [|discriminate].
    apply R_while_done. rewrite (lower_exp_value _ _ _ _ _ _ Hheld Hlc), Hv. exact H.
  - destruct (IHb _ _ _ _ _ _ _ _ _ _ is HC Hlb H1 Hheld HB Hv) as (is1 & V1 & S1 & R1).
    destruct (IHHE eq_refl HC is1 V1 ltac:(eapply held_keep; eauto)) as (is' & V' & S' & R' & Ho).
    exists is'. split; [exact V'|]. split; [eapply same_trans; eauto|]. split; [|exact Ho].
    eapply R_while_again with (v := v) (s1 := is1); [|assumption|now apply run_add_yield|exact R'].
    rewrite (lower_exp_value _ _ _ _ _ _ Hheld Hlc), Hv. exact H.
  - destruct (IHb _ _ _ _ _ _ _ _ _ _ is HC Hlb H1 Hheld HB Hv) as (is1 & V1 & S1 & R1).
    exists is1. split; [exact V1|]. split; [exact S1|]. split; [|discriminate].
    eapply R_while_break with (v := v); [|assumption|now apply run_add_yield].
    rewrite (lower_exp_value _ _ _ _ _ _ Hheld Hlc), Hv. exact H.
  - destruct (IHb _ _ _ _ _ _ _ _ _ _ is HC Hlb H1 Hheld HB Hv) as (is1 & V1 & S1 & R1).
    exists is1. split; [exact V1|]. split; [exact S1|]. split; [|discriminate].
    eapply R_while_return with (v := v); [|assumption|now apply run_add_yield].
    rewrite (lower_exp_value _ _ _ _ _ _ Hheld Hlc), Hv. exact H.
Qed.

Theorem lower_forward : (forall s, F_stmt s) /\ (forall b, F_block b) /\ (forall a, F_alt a).
Proof.
  apply stmt_mut.
  - (* assign *)
    intros x e dec sc lp k os k' ix st st' o is HC HL HE Hh HB Hv.
    cbn [lower_stmt] in HL. apply bind_ok in HL. destruct HL as (le & E1 & HL).
    destruct HC as (C1 & C2 & C3).
    unfold lookup_name in HL. rewrite <- (held_names _ _ _ Hh) in C2.
    rewrite (lookup_index_none _ _ C2) in HL.
    destruct (existsb (Nat.eqb x) dec); [|discriminate]. cbn [bind] in HL. injection HL as <- <-.
    inversion HE; subst.
    exists (IS (set (vars is) x v) (slots is)). split; [reflexivity|].
    split; [intros j _; reflexivity|]. intros r s2 o2 HR. inversion HR; subst; [|congruence].
    cbn [oapp]. eapply R_set; [|eassumption].
    now rewrite (lower_exp_value _ _ _ _ _ _ Hh E1).
  - (* if *)
    intros c th IHt el IHe dec sc lp k os k' ix st st' o is (C1 & C2 & C3 & C4) HL HE Hh HB Hv.
    cbn [lower_stmt] in HL. apply bind_ok in HL. destruct HL as (lc & E1 & HL).
    okbind HL. rename E into E2. apply bind_ok in HL. destruct HL as ([[has oe] k2] & E3 & HL).
    cbn [fst snd] in HL. injection HL as <- <-.
    assert (Hk : (k <= n)%nat)
      by (eapply lower_le_block; [rewrite (held_names _ _ _ Hh); exact C2|exact E2]).
    inversion HE; subst.
    + edestruct (IHt dec sc lp k) as (is1 & V1 & S1 & R1);
        [exact C2|exact E2|eassumption|exact Hh|exact HB|reflexivity|].
      exists is1. split; [exact V1|]. split; [exact S1|]. intros r s2 o2 HR. cbn [oapp].
      eapply R_if with (v := v); [now rewrite (lower_exp_value _ _ _ _ _ _ Hh E1)| |exact HR].
      destruct (Z.eqb_spec v 0); [contradiction|].
      rewrite <- (oapp_nil o0). apply R1, then_nil.
    + edestruct (IHe dec sc lp n) as (is1 & V1 & S1 & R1);
        [exact C3|exact E3|eassumption|exact Hh|eapply below_mono; eauto|reflexivity|].
      exists is1. split; [exact V1|]. split; [eapply same_mono; eauto|].
      intros r s2 o2 HR. cbn [oapp].
      eapply R_if with (v := 0); [now rewrite (lower_exp_value _ _ _ _ _ _ Hh E1)| |exact HR].
      exact R1.
  - (* for *)
    intros l b IHb dec sc lp k os k' ix st st' o is
           (x & lo & hi & -> & C1 & C2 & C3 & C4) HL HE Hh HB Hv.
    cbn [lower_stmt] in HL. unfold lower_range in HL.
    apply bind_ok in HL. destruct HL as (rg & ER & HL).
    apply bind_ok in ER. destruct ER as (llo & E1 & ER).
    apply bind_ok in ER. destruct ER as (lhi & E2 & ER). injection ER as <-.
    cbn [fst snd] in HL. okbind HL. injection HL as <- <-.
    inversion HE; subst.
    match goal with H : exec_for _ _ _ _ _ _ |- _ => inversion H; subst; clear H end.
    match goal with H : values _ _ _ = Some _ |- _ => rename H into H1 end.
    match goal with H : range_values _ = Some _ |- _ => rename H into H4 end.
    cbn [values] in H1. destruct (value ix (vars is) lo) as [vlo|] eqn:Elo; [|discriminate].
    destruct (value ix (vars is) hi) as [vhi|] eqn:Ehi; [|discriminate].
    injection H1 as <-. cbn [range_values] in H4. injection H4 as <-.
    set (is0 := IS (vars is) (set (slots is) k vlo)).
    assert (S0 : same_below k is is0).
    { intros j Hj. cbn. unfold set. destruct (Nat.eqb_spec j k); [lia|reflexivity]. }
    edestruct (for_forward b dec sc ix x k o0 n lhi hi true IHb C4 E E2 C3 HB
                 (Z.to_nat (vhi - vlo + 1)) vlo vhi is0) as (is' & V' & S' & R' & Ho);
      [exact Ehi|reflexivity|cbn; unfold set; now rewrite Nat.eqb_refl
      |eapply held_keep; eauto|eassumption|].
    exists is'. split; [exact V'|]. split; [eapply same_trans; eauto|].
    intros r s2 o2 HR. cbn [oapp].
    eapply R_store with (v := vlo); [now rewrite (lower_exp_value _ _ _ _ _ _ Hh E1)|].
    eapply R_for; [exact R'|exact HR].
  - (* while *)
    intros c b IHb dec sc lp k os k' ix st st' o is (C1 & C2 & C3) HL HE Hh HB Hv.
    cbn [lower_stmt] in HL. apply bind_ok in HL. destruct HL as (lc & E1 & HL).
    okbind HL. injection HL as <- <-.
    destruct (while_forward b dec sc c lc k o0 n true IHb E E1 HB ix st _ st' o HE eq_refl C2 is Hv Hh)
      as (is' & V' & S' & R' & Ho).
    exists is'. split; [exact V'|]. split; [exact S'|]. intros r s2 o2 HR. cbn [oapp].
    eapply R_while; eauto.
  - (* break *)
    intros dec sc lp k os k' ix st st' o is HC HL HE Hh HB Hv. cbn in HL. injection HL as <- <-.
    inversion HE; subst. exists is. split; [reflexivity|]. split; [apply same_refl|].
    intros r s2 o2 HR. inversion HR; subst. cbn. constructor.
  - (* return *)
    intros dec sc lp k os k' ix st st' o is HC HL HE Hh HB Hv. cbn in HL. injection HL as <- <-.
    inversion HE; subst. exists is. split; [reflexivity|]. split; [apply same_refl|].
    intros r s2 o2 HR. inversion HR; subst. cbn. constructor.
  - (* nil *)
    intros dec sc lp k os k' ix st st' o is HC HL HE Hh HB Hv. cbn in HL. injection HL as <- <-.
    inversion HE; subst. exists is. split; [reflexivity|]. split; [apply same_refl|].
    intros r s2 o2 HR. inversion HR; subst; [assumption|congruence].
  - (* cons *)
    intros s IHs b IHb dec sc lp k os k' ix st st' o is (C1 & C2 & C3) HL HE Hh HB Hv.
    cbn [lower_block] in HL. okbind HL. okbind HL. injection HL as <- <-.
    assert (Hk : (k <= n)%nat)
      by (eapply lower_le_stmt; [rewrite (held_names _ _ _ Hh); exact C1|exact E]).
    inversion HE; subst.
    + edestruct (IHs dec sc lp k) as (is1 & V1 & S1 & R1);
        [exact C1|exact E|eassumption|exact Hh|exact HB|reflexivity|].
      edestruct (IHb dec sc lp n) as (is2 & V2 & S2 & R2);
        [exact C2|exact E0|eassumption|eapply held_keep; eauto|eapply below_mono; eauto|exact V1|].
      exists is2. split; [exact V2|].
      split; [eapply same_trans; [exact S1|eapply same_mono; eauto]|].
      intros r s2 o2 HR. rewrite oapp_assoc. apply R1. constructor. now apply R2.
    + edestruct (IHs dec sc lp k) as (is1 & V1 & S1 & R1);
        [exact C1|exact E|eassumption|exact Hh|exact HB|reflexivity|].
      exists is1. split; [exact V1|]. split; [exact S1|].
      intros r s2 o2 HR. rewrite oapp_assoc. apply R1.
      inversion HR; subst; [congruence|]. now constructor.
  - (* no alternative *)
    intros dec sc lp k has os k' ix st st' o is HC HL HE Hh HB Hv. cbn in HL.
    injection HL as <- <- <-. inversion HE; subst. exists is. split; [reflexivity|].
    split; [apply same_refl|constructor].
  - (* else *)
    intros b IHb dec sc lp k has os k' ix st st' o is HC HL HE Hh HB Hv. cbn [lower_alt] in HL.
    okbind HL. injection HL as <- <- <-. inversion HE; subst.
    edestruct (IHb dec sc lp k) as (is1 & V1 & S1 & R1);
      [exact HC|exact E|eassumption|exact Hh|exact HB|reflexivity|].
    exists is1. split; [exact V1|]. split; [exact S1|].
    rewrite <- (oapp_nil o0). apply R1, then_nil.
  - (* elseif *)
    intros c b IHb a IHa dec sc lp k has os k' ix st st' o is (C1 & C2 & C3 & C4) HL HE Hh HB Hv.
    cbn [lower_alt] in HL. apply bind_ok in HL. destruct HL as (lc & E1 & HL).
    okbind HL. rename E into E2. apply bind_ok in HL. destruct HL as ([[has' oe] k2] & E3 & HL).
    cbn [fst snd] in HL. injection HL as <- <- <-.
    assert (Hk : (k <= n)%nat)
      by (eapply lower_le_block; [rewrite (held_names _ _ _ Hh); exact C2|exact E2]).
    inversion HE; subst.
    + edestruct (IHb dec sc lp k) as (is1 & V1 & S1 & R1);
        [exact C2|exact E2|eassumption|exact Hh|exact HB|reflexivity|].
      exists is1. split; [exact V1|]. split; [exact S1|].
      eapply R_if with (v := v); [now rewrite (lower_exp_value _ _ _ _ _ _ Hh E1)| |apply then_nil].
      destruct (Z.eqb_spec v 0); [contradiction|].
      rewrite <- (oapp_nil o0). apply R1, then_nil.
    + edestruct (IHa dec sc lp n) as (is1 & V1 & S1 & R1);
        [exact C3|exact E3|eassumption|exact Hh|eapply below_mono; eauto|reflexivity|].
      exists is1. split; [exact V1|]. split; [eapply same_mono; eauto|].
      eapply R_if with (v := 0); [now rewrite (lower_exp_value _ _ _ _ _ _ Hh E1)| |apply then_nil].
      exact R1.
Qed.

(** ** From the operations to the statements *)

Definition G_stmt (s : stmt) : Prop := forall dec sc lp k os k' ix is r s2 o2,
  covered_stmt dec (map fst ix) lp s -> lower_stmt dec sc k s = Ok (os, k') ->
  held is sc ix -> below k sc -> run_ops is (oapp os r) s2 o2 ->
  exists is' o, exec_stmt ix (vars is) s (vars is') o /\ same_below k is is' /\
    run_then is' o r s2 o2.

Definition G_block (b : block) : Prop := forall dec sc lp k os k' ix is r s2 o2,
  covered_block dec (map fst ix) lp b -> lower_block dec sc k b = Ok (os, k') ->
  held is sc ix -> below k sc -> run_ops is (oapp os r) s2 o2 ->
  exists is' o, exec_block ix (vars is) b (vars is') o /\ same_below k is is' /\
    run_then is' o r s2 o2.

Definition G_alt (a : alt) : Prop := forall dec sc lp k has os k' ix is is' o,
  covered_alt dec (map fst ix) lp a -> lower_alt dec sc k a = Ok (has, os, k') ->
  held is sc ix -> below k sc -> run_ops is (if has then os else ONil) is' o ->
  exec_alt ix (vars is) a (vars is') o /\ same_below k is is'.

Lemma then_nil_inv s o s' o' : run_then s o ONil s' o' -> s' = s /\ o' = o.
Proof. intros H. inversion H; subst; [inversion H0; subst|]; auto. Qed.

Lemma then_yield_inv s o s' o' : run_then s o (OYield ONil) s' o' -> s' = s /\ o' = o.
Proof. intros H. inversion H; subst; [inversion H0; subst|]; auto. Qed.

Lemma block_alone b dec sc lp k os k' ix is s2 o2 :
  G_block b -> covered_block dec (map fst ix) lp b -> lower_block dec sc k b = Ok (os, k') ->
  held is sc ix -> below k sc -> run_ops is os s2 o2 ->
  exec_block ix (vars is) b (vars s2) o2 /\ same_below k is s2.
Proof.
  intros HG HC HL Hh HB HR. rewrite <- (oapp_nil os) in HR.
  destruct (HG _ _ _ _ _ _ _ _ _ _ _ HC HL Hh HB HR) as (is' & o & HE & HS & HT).
  apply then_nil_inv in HT. destruct HT as [-> ->]. auto.
Qed.

Lemma block_yield b dec sc lp k os k' ix is s2 o2 :
  G_block b -> covered_block dec (map fst ix) lp b -> lower_block dec sc k b = Ok (os, k') ->
  held is sc ix -> below k sc -> run_ops is (add_yield os) s2 o2 ->
  exec_block ix (vars is) b (vars s2) o2 /\ same_below k is s2.
Proof.
  intros HG HC HL Hh HB HR. unfold add_yield in HR.
  destruct (ends_in_terminator os).
  - eapply block_alone; eauto.
  - destruct (HG _ _ _ _ _ _ _ _ _ _ _ HC HL Hh HB HR) as (is' & o & HE & HS & HT).
    apply then_yield_inv in HT. destruct HT as [-> ->]. auto.
Qed.

Lemma for_backward b dec sc ix x k ob k1 lhi hi lp h :
  G_block b -> covered_block dec (x :: map fst ix) lp b ->
  lower_block dec ((x, k) :: sc) (S k) b = Ok (ob, k1) ->
  lower_exp dec sc hi = Ok lhi ->
  (forall y, In y (reads hi) -> ~ In y (map fst ix) -> ~ In y (assigned_block b)) ->
  below k sc ->
  forall is kk hh body st s' o, run_for is kk hh body st s' o ->
    kk = k -> hh = lhi -> body = add_yield ob -> st = one_exp ->
    value ix (vars is) hi = Some h -> held is sc ix ->
    exec_iter ix (vars is) x (progression (slots is k) 1 (Z.to_nat (h - slots is k + 1))) [] b
      (vars s') o /\ same_below k is s'.
Proof.
  intros HG HC Hlb Hlh Hfr HB is kk hh body st s' o HR.
  induction HR; intros -> -> -> -> Hh Hheld;
    (assert (h0 = h) by
      (rewrite (lower_exp_value _ _ _ _ _ _ Hheld Hlh) in H; congruence)); subst h0.
  - replace (Z.to_nat (h - slots s k + 1)) with 0%nat by lia.
    split; [constructor|apply same_refl].
  - replace (Z.to_nat (h - slots s k + 1)) with (S (Z.to_nat (h - (slots s k + 1) + 1))) by lia.
    cbn [progression].
    edestruct (block_yield b dec ((x, k) :: sc) lp (S k)) with (ix := (x, slots s k) :: ix)
      as [X1 S1]; [exact HG|exact HC|exact Hlb|constructor; [cbn; auto|exact Hheld]
      |constructor; [cbn; lia|eapply below_mono; [|exact HB]; lia]|exact H1|].
    assert (Hk : slots s1 k = slots s k) by (apply S1; lia).
    cbn in H2. injection H2 as <-.
    assert (S2 : same_below k s {| vars := vars s1; slots := set (slots s1) k (slots s1 k + 1) |}).
    { intros j Hj. cbn. unfold set. destruct (Nat.eqb_spec j k); [lia|]. apply S1. lia. }
    destruct IHHR as [X2 S3]; auto.
    { rewrite <- Hh. apply value_frame. intros y Hy Hny. cbn.
      apply (block_frame _ _ _ _ _ y X1). now apply Hfr. }
    { eapply held_keep; eauto. }
    cbn [vars slots] in X2. unfold set in X2 at 1 2. rewrite Nat.eqb_refl, Hk in X2.
    split; [|eapply same_trans; eauto].
    eapply E_again; [constructor; exact X1|exact X2].
  - replace (Z.to_nat (h - slots s k + 1)) with (S (Z.to_nat (h - (slots s k + 1) + 1))) by lia.
    cbn [progression].
    edestruct (block_yield b dec ((x, k) :: sc) lp (S k)) with (ix := (x, slots s k) :: ix)
      as [X1 S1]; [exact HG|exact HC|exact Hlb|constructor; [cbn; auto|exact Hheld]
      |constructor; [cbn; lia|eapply below_mono; [|exact HB]; lia]|exact H1|].
    split; [|eapply same_mono; [|exact S1]; lia].
    eapply E_broken. constructor. exact X1.
  - replace (Z.to_nat (h - slots s k + 1)) with (S (Z.to_nat (h - (slots s k + 1) + 1))) by lia.
    cbn [progression].
    edestruct (block_yield b dec ((x, k) :: sc) lp (S k)) with (ix := (x, slots s k) :: ix)
      as [X1 S1]; [exact HG|exact HC|exact Hlb|constructor; [cbn; auto|exact Hheld]
      |constructor; [cbn; lia|eapply below_mono; [|exact HB]; lia]|exact H1|].
    split; [|eapply same_mono; [|exact S1]; lia].
    eapply E_returned. constructor. exact X1.
Qed.

Lemma while_backward b dec sc c lc k ob k1 lp ix :
  G_block b -> covered_block dec (map fst ix) lp b -> lower_block dec sc k b = Ok (ob, k1) ->
  lower_exp dec sc c = Ok lc -> below k sc ->
  forall is cc body s' o, run_while is cc body s' o -> cc = lc -> body = add_yield ob ->
    held is sc ix ->
    exec_stmt ix (vars is) (SWhile c b) (vars s') o /\ same_below k is s'.
Proof.
  intros HG HC Hlb Hlc HB is cc body s' o HR.
  induction HR; intros -> -> Hheld;
    rewrite (lower_exp_value _ _ _ _ _ _ Hheld Hlc) in H.
  - split; [now apply E_while_done|apply same_refl].
  - destruct (block_yield _ _ _ _ _ _ _ _ _ _ _ HG HC Hlb Hheld HB H1) as [X1 S1].
    destruct IHHR as [X2 S2]; auto; [eapply held_keep; eauto|].
    split; [eapply E_while_again; eauto|eapply same_trans; eauto].
  - destruct (block_yield _ _ _ _ _ _ _ _ _ _ _ HG HC Hlb Hheld HB H1) as [X1 S1].
    split; [eapply E_while_break; eauto|exact S1].
  - destruct (block_yield _ _ _ _ _ _ _ _ _ _ _ HG HC Hlb Hheld HB H1) as [X1 S1].
    split; [eapply E_while_return; eauto|exact S1].
Qed.

Theorem lower_backward : (forall s, G_stmt s) /\ (forall b, G_block b) /\ (forall a, G_alt a).
Proof.
  apply stmt_mut.
  - (* assign *)
    intros x e dec sc lp k os k' ix is r s2 o2 HC HL Hh HB HR.
    cbn [lower_stmt] in HL. apply bind_ok in HL. destruct HL as (le & E1 & HL).
    destruct HC as (C1 & C2 & C3).
    unfold lookup_name in HL. rewrite <- (held_names _ _ _ Hh) in C2.
    rewrite (lookup_index_none _ _ C2) in HL.
    destruct (existsb (Nat.eqb x) dec); [|discriminate]. cbn [bind] in HL. injection HL as <- <-.
    cbn [oapp] in HR. inversion HR; subst.
    exists (IS (set (vars is) x v) (slots is)), Normal.
    split; [|split; [intros j _; reflexivity|now constructor]].
    constructor. now rewrite <- (lower_exp_value _ _ _ _ _ _ Hh E1).
  - (* if *)
    intros c th IHt el IHe dec sc lp k os k' ix is r s2 o2 (C1 & C2 & C3 & C4) HL Hh HB HR.
    cbn [lower_stmt] in HL. apply bind_ok in HL. destruct HL as (lc & E1 & HL).
    okbind HL. rename E into E2. apply bind_ok in HL. destruct HL as ([[has oe] k2] & E3 & HL).
    cbn [fst snd] in HL. injection HL as <- <-.
    assert (Hk : (k <= n)%nat)
      by (eapply lower_le_block; [rewrite (held_names _ _ _ Hh); exact C2|exact E2]).
    cbn [oapp] in HR. inversion HR; subst.
    match goal with H : leval is lc = Some v |- _ =>
      rewrite (lower_exp_value _ _ _ _ _ _ Hh E1) in H; rename H into Hv end.
    match goal with H : run_then _ _ _ _ _ |- _ => rename H into HT end.
    exists s1, o1. destruct (Z.eqb_spec v 0) as [->|Hnz].
    + match goal with H : run_ops is _ s1 o1 |- _ =>
        destruct (IHe dec sc lp n has oe k2 ix is s1 o1 C3 E3 Hh) as [X1 S1];
        [eapply below_mono; eauto|exact H|] end.
      split; [now apply E_if_false|]. split; [eapply same_mono; eauto|exact HT].
    + match goal with H : run_ops is o s1 o1 |- _ =>
        destruct (block_alone _ _ _ _ _ _ _ _ _ _ _ IHt C2 E2 Hh HB H) as [X1 S1] end.
      split; [eapply E_if_true; eauto|]. split; [exact S1|exact HT].
  - (* for *)
    intros l b IHb dec sc lp k os k' ix is r s2 o2
           (x & lo & hi & -> & C1 & C2 & C3 & C4) HL Hh HB HR.
    cbn [lower_stmt] in HL. unfold lower_range in HL.
    apply bind_ok in HL. destruct HL as (rg & ER & HL).
    apply bind_ok in ER. destruct ER as (llo & E1 & ER).
    apply bind_ok in ER. destruct ER as (lhi & E2 & ER). injection ER as <-.
    cbn [fst snd] in HL. okbind HL. injection HL as <- <-.
    cbn [oapp] in HR. inversion HR; subst. clear HR.
    match goal with H : leval is llo = Some v |- _ =>
      rewrite (lower_exp_value _ _ _ _ _ _ Hh E1) in H; rename H into Hlo end.
    match goal with H : run_ops _ (OFor _ _ _ _ _) _ _ |- _ => inversion H; subst; clear H end.
    match goal with H : run_then _ _ _ _ _ |- _ => rename H into HT end.
    match goal with H : run_for _ _ _ _ _ _ _ |- _ => rename H into HF end.
    set (is0 := IS (vars is) (set (slots is) k v)) in *.
    assert (S0 : same_below k is is0).
    { intros j Hj. cbn. unfold set. destruct (Nat.eqb_spec j k); [lia|reflexivity]. }
    assert (Hh0 : held is0 sc ix) by (eapply held_keep; eauto).
    assert (exists h, value ix (vars is) hi = Some h) as [h Hhi].
    { inversion HF; subst; match goal with H : leval is0 lhi = Some ?h |- _ =>
        exists h; rewrite (lower_exp_value _ _ _ _ _ _ Hh0 E2) in H; exact H end. }
    destruct (for_backward b dec sc ix x k o n lhi hi true h IHb C4 E E2 C3 HB
                _ _ _ _ _ _ _ HF eq_refl eq_refl eq_refl eq_refl Hhi Hh0) as [X1 S1].
    exists s1, o1. split; [|split; [eapply same_trans; eauto|exact HT]].
    constructor. eapply E_index; [cbn; rewrite Hlo, Hhi; reflexivity|reflexivity|].
    cbn [vars slots is0] in X1. unfold set in X1. rewrite Nat.eqb_refl in X1. exact X1.
  - (* while *)
    intros c b IHb dec sc lp k os k' ix is r s2 o2 (C1 & C2 & C3) HL Hh HB HR.
    cbn [lower_stmt] in HL. apply bind_ok in HL. destruct HL as (lc & E1 & HL).
    okbind HL. injection HL as <- <-. cbn [oapp] in HR. inversion HR; subst.
    match goal with H : run_while _ _ _ _ _ |- _ =>
      destruct (while_backward b dec sc c lc k o n true ix IHb C2 E E1 HB
                  _ _ _ _ _ H eq_refl eq_refl Hh) as [X1 S1] end.
    exists s1, o1. auto.
  - (* break *)
    intros dec sc lp k os k' ix is r s2 o2 HC HL Hh HB HR. cbn in HL. injection HL as <- <-.
    cbn in HR. inversion HR; subst. exists s2, Breaking.
    split; [constructor|]. split; [apply same_refl|]. now constructor.
  - (* return *)
    intros dec sc lp k os k' ix is r s2 o2 HC HL Hh HB HR. cbn in HL. injection HL as <- <-.
    cbn in HR. inversion HR; subst. exists s2, Returning.
    split; [constructor|]. split; [apply same_refl|]. now constructor.
  - (* nil *)
    intros dec sc lp k os k' ix is r s2 o2 HC HL Hh HB HR. cbn in HL. injection HL as <- <-.
    cbn in HR. exists is, Normal. split; [constructor|]. split; [apply same_refl|]. now constructor.
  - (* cons *)
    intros s IHs b IHb dec sc lp k os k' ix is r s2 o2 (C1 & C2 & C3) HL Hh HB HR.
    cbn [lower_block] in HL. okbind HL. okbind HL. injection HL as <- <-.
    assert (Hk : (k <= n)%nat)
      by (eapply lower_le_stmt; [rewrite (held_names _ _ _ Hh); exact C1|exact E]).
    rewrite oapp_assoc in HR.
    destruct (IHs _ _ _ _ _ _ _ _ _ _ _ C1 E Hh HB HR) as (is1 & o1 & X1 & S1 & HT).
    inversion HT; subst.
    + match goal with H : run_ops is1 _ _ _ |- _ =>
        destruct (IHb dec sc lp n o0 n0 ix is1 r s2 o2 C2 E0) as (is2 & o3 & X2 & S2 & HT2);
        [eapply held_keep; eauto|eapply below_mono; eauto|exact H|] end.
      exists is2, o3. split; [eapply E_cons; eauto|].
      split; [eapply same_trans; [exact S1|eapply same_mono; eauto]|exact HT2].
    + exists s2, o2. split; [now apply E_leave|]. split; [exact S1|]. now constructor.
  - (* no alternative *)
    intros dec sc lp k has os k' ix is is' o HC HL Hh HB HR. cbn in HL.
    injection HL as <- <- <-. inversion HR; subst. split; [constructor|apply same_refl].
  - (* else *)
    intros b IHb dec sc lp k has os k' ix is is' o HC HL Hh HB HR. cbn [lower_alt] in HL.
    okbind HL. injection HL as <- <- <-.
    destruct (block_alone _ _ _ _ _ _ _ _ _ _ _ IHb HC E Hh HB HR) as [X1 S1].
    split; [now constructor|exact S1].
  - (* elseif *)
    intros c b IHb a IHa dec sc lp k has os k' ix is is' o (C1 & C2 & C3 & C4) HL Hh HB HR.
    cbn [lower_alt] in HL. apply bind_ok in HL. destruct HL as (lc & E1 & HL).
    okbind HL. rename E into E2. apply bind_ok in HL. destruct HL as ([[has' oe] k2] & E3 & HL).
    cbn [fst snd] in HL. injection HL as <- <- <-.
    assert (Hk : (k <= n)%nat)
      by (eapply lower_le_block; [rewrite (held_names _ _ _ Hh); exact C2|exact E2]).
    inversion HR; subst.
    match goal with H : leval is lc = Some v |- _ =>
      rewrite (lower_exp_value _ _ _ _ _ _ Hh E1) in H; rename H into Hv end.
    match goal with H : run_then _ _ _ _ _ |- _ => apply then_nil_inv in H; destruct H; subst end.
    clear HR.
    destruct (Z.eqb_spec v 0) as [->|Hnz].
    + edestruct (IHa dec sc lp n has' oe k2 ix is) as [X1 S1];
        [exact C3|exact E3|exact Hh|eapply below_mono; eauto|eassumption|].
      split; [now apply E_elseif_false|eapply same_mono; eauto].
    + match goal with H : run_ops is o0 _ _ |- _ =>
        destruct (block_alone _ _ _ _ _ _ _ _ _ _ _ IHb C2 E2 Hh HB H) as [X1 S1] end.
      split; [eapply E_elseif_true; eauto|exact S1].
Qed.

(** ** Functions *)

Lemma lower_algs_correct dec : forall algs k, covered_function dec algs ->
  exists os, lower_algs dec k algs = Ok os /\ covered_algs os /\
    (forall s st', exec_function (vars s) algs st' <->
       exists s', run_algs s os s' /\ vars s' = st').
Proof.
  induction algs as [|b algs IH]; intros k HC.
  - exists []. split; [reflexivity|]. split; [constructor|]. intros s st'. split.
    + intros H. inversion H; subst. exists s. split; [constructor|reflexivity].
    + intros (s' & H & <-). inversion H; subst. constructor.
  - inversion HC as [|? ? H1 H2]; subst. destruct b as [|s0 b0].
    + destruct (IH k H2) as (os & E & C & X). exists os. split; [exact E|]. split; [exact C|].
      intros s st'. rewrite <- X. split.
      * intros H. inversion H as [|? ? ? ? ? HE HF|? ? ? ? HE]; subst;
          inversion HE; subst. exact HF.
      * intros H. eapply F_next; [constructor|exact H].
    + set (b := BCons s0 b0) in *.
      destruct (proj1 (proj2 lowered) b dec [] false k H1) as (ob & k1 & E & _ & P & _ & _ & _ & C1).
      destruct (IH k1 H2) as (os & E2 & C & X).
      assert (EL : lower_algs dec k (b :: algs) = Ok (ob :: os)).
      { change (lower_algs dec k (b :: algs)) with
          (o <- lower_block dec [] k b ;; _ <- assert_ok (placed (fst o)) ;;
           r <- lower_algs dec (snd o) algs ;; Ok (fst o :: r)).
        rewrite E. cbn [bind fst snd]. rewrite P. cbn [assert_ok bind]. rewrite E2. reflexivity. }
      exists (ob :: os). split; [exact EL|].
      assert (Cb : covered_ops false false ob) by (apply covered_nil; apply C1).
      split; [now constructor|].
      intros s st'. split.
      * intros H. inversion H as [|? ? ? ? ? HE HF|? ? ? ? HE]; subst.
        -- destruct (proj1 (proj2 lower_forward) b dec [] false k ob k1 [] _ _ _ s H1 E HE)
             as (s1 & V1 & _ & R1); [constructor|constructor|reflexivity|].
           subst st1. apply X in HF. destruct HF as (s' & HF & <-). exists s'. split; [|reflexivity].
           eapply A_next; [|exact HF]. rewrite <- (oapp_nil ob). apply R1, then_nil.
        -- destruct (proj1 (proj2 lower_forward) b dec [] false k ob k1 [] _ _ _ s H1 E HE)
             as (s1 & V1 & _ & R1); [constructor|constructor|reflexivity|].
           exists s1. split; [|exact V1]. apply A_return.
           rewrite <- (oapp_nil ob). apply R1, then_nil.
      * intros (s' & HR & <-). inversion HR as [|? ? ? ? ? HE HF|? ? ? ? HE]; subst.
        -- destruct (block_alone b dec [] false k ob k1 [] s s2 Normal
                       (proj1 (proj2 lower_backward) b) H1 E) as [X1 _];
             [constructor|constructor|exact HE|].
           eapply F_next; [exact X1|]. apply X. eauto.
        -- destruct (block_alone b dec [] false k ob k1 [] s s' Returning
                       (proj1 (proj2 lower_backward) b) H1 E) as [X1 _];
             [constructor|constructor|exact HE|].
           apply F_return. exact X1.
Qed.

Theorem compile_correct dec algs : covered_function dec algs ->
  exists g, compile dec algs = Ok g /\
    forall st st', exec_function st algs st' <-> exists fuel, run_function g fuel st = Ok st'.
Proof.
  intros HC. destruct (lower_algs_correct dec algs 0 HC) as (os & E & Co & X).
  destruct (convert_correct os Co) as (g & b & Eg & Hl & Hf & Y).
  exists g. split.
  - unfold compile. rewrite E. cbn [bind]. rewrite Eg. cbn [bind]. rewrite Hl. reflexivity.
  - intros st st'.
    change (exec_function st algs st') with
      (exec_function (vars (IS st (fun _ => 0))) algs st').
    rewrite X. unfold run_function. rewrite Hf. split.
    + intros (s' & HR & <-). apply Y in HR. destruct HR as [fuel HR]. exists fuel. now rewrite HR.
    + intros (fuel & H). apply bind_ok in H. destruct H as (s' & HR & H). injection H as <-.
      exists s'. split; [|reflexivity]. apply Y. eauto.
Qed.

(** ** What goes wrong outside *)

Lemma crun_mono g : forall n c s, crun g n c = Ok s -> forall m, (n <= m)%nat -> crun g m c = Ok s.
Proof.
  induction n as [|n IH]; intros c s H m Hm; [discriminate|].
  destruct m as [|m]; [lia|]. destruct (final_dec c) as [E|E].
  - rewrite E in *. exact H.
  - rewrite crun_step in * by exact E. destruct (cstep g c); [|discriminate].
    apply IH; [exact H|lia].
Qed.

Lemma run_same g n m st r r' : run_function g n st = Ok r -> run_function g m st = Ok r' -> r = r'.
Proof.
  unfold run_function. destruct (find_blk g 0) as [b|]; [|discriminate].
  intros H1 H2. apply bind_ok in H1. destruct H1 as (s1 & E1 & H1).
  apply bind_ok in H2. destruct H2 as (s2 & E2 & H2). injection H1 as <-. injection H2 as <-.
  destruct (Nat.le_ge_cases n m) as [L|L].
  - rewrite (crun_mono _ _ _ _ E1 _ L) in E2. congruence.
  - rewrite (crun_mono _ _ _ _ E2 _ L) in E1. congruence.
Qed.

Lemma straight_conv : forall b dec sc k os k' cur pre tl lx rx drop n,
  straight b -> lower_block dec sc k b = Ok (os, k') ->
  conv os cur pre tl lx rx drop n = Ok ([(cur, (pre ++ raw os, tl))], n) /\
  conv (oapp os (OYield ONil)) cur pre tl lx rx false n =
    Ok ([(cur, (pre ++ raw os ++ [ILeft], tl))], n) /\
  ends_in_terminator os = false /\ placed os = true /\ placed (oapp os (OYield ONil)) = true.
Proof.
  induction b as [|s b IH]; intros dec sc k os k' cur pre tl lx rx drop n HS HL.
  - cbn in HL. injection HL as <- <-. cbn. rewrite !app_nil_r. auto.
  - cbn [straight] in HS. destruct s; try contradiction.
    cbn [lower_block lower_stmt] in HL. apply bind_ok in HL. destruct HL as ([o k1] & E & HL).
    apply bind_ok in E. destruct E as (le & _ & E). apply bind_ok in E. destruct E as (rf & _ & E).
    destruct rf as [y|]; [|discriminate]. injection E as <- <-. cbn [fst snd] in HL.
    okbind HL. injection HL as <- <-.
    destruct (IH dec sc k o n0 cur (pre ++ [ISet y le]) tl lx rx drop n HS E) as (A & B & C & D & F).
    cbn [oapp conv raw ends_in_terminator placed]. rewrite A, B, <- !app_assoc. auto.
Qed.

Lemma left_dirty l a : forallb converted (a ++ ILeft :: l) = false.
Proof. rewrite forallb_app. cbn. apply andb_false_r. Qed.

(** Every [while] over assignments is refused. *)
Lemma while_refused dec c b : straight b -> forall g, compile dec [BCons (SWhile c b) BNil] <> Ok g.
Proof.
  intros HS g H. unfold compile in H. apply bind_ok in H. destruct H as (os & E & H).
  cbn [lower_algs lower_block lower_stmt] in E.
  apply bind_ok in E. destruct E as ([o k] & E1 & E). apply bind_ok in E1.
  destruct E1 as ([o1 k1] & E2 & E1). cbn [fst snd bind] in E1. injection E1 as <- <-.
  apply bind_ok in E2. destruct E2 as (lc & _ & E2). apply bind_ok in E2.
  destruct E2 as ([ob k2] & Eb & E2). cbn [fst snd] in E2. injection E2 as <- <-.
  apply bind_ok in E. destruct E as (u & _ & E). cbn [fst snd bind lower_algs] in E.
  injection E as <-.
  destruct (straight_conv b dec [] 0 ob k2 5 [] (TBr 4) (Some 3%nat) 1 false 6 HS Eb)
    as (_ & B & Hend & _ & _).
  unfold add_yield in H. rewrite Hend in H. cbn [oapp] in H.
  unfold convert in H. cbn [conv_algs conv] in H. rewrite B in H. cbn [bind fst snd app] in H.
  match type of H with (_ <- assert_ok (legal ?g0);; _) = _ => assert (legal g0 = false) as HF end.
  { unfold legal. cbn [reach length flat_map succs find_blk Nat.eqb app].
    vm_compute (nodup _ _). cbn [forallb fst snd existsb Nat.eqb negb orb app].
    rewrite left_dirty. cbn. rewrite ?andb_false_r. reflexivity. }
  rewrite HF in H. discriminate H.
Qed.

Lemma raw_oapp a b : raw (oapp a b) = raw a ++ raw b.
Proof.
  induction a as [|x e q IH|k e q IH|c th IHt has el IHe q IH|k hi b0 IHb st q IH
                 |c b0 IHb q IH|q IH|q IH|q IH]; cbn; congruence.
Qed.

Lemma control_raw s dec sc k os k' : control s -> lower_stmt dec sc k s = Ok (os, k') ->
  exists a l, raw os = a ++ ILeft :: l.
Proof.
  intros HC HL. destruct s; cbn [control] in HC; try contradiction; cbn [lower_stmt] in HL.
  - apply bind_ok in HL. destruct HL as (lc & _ & HL). okbind HL. okbind HL. injection HL as <- <-.
    now exists [], [].
  - destruct ix as [|[x r] ix]; [congruence|].
    apply bind_ok in HL. destruct HL as (rg & _ & HL). okbind HL. okbind HL. injection HL as <- <-.
    cbn. eexists [_], _. reflexivity.
  - apply bind_ok in HL. destruct HL as (lc & _ & HL). okbind HL. injection HL as <- <-.
    now exists [], [].
  - injection HL as <- <-. now exists [], [].
  - injection HL as <- <-. now exists [], [].
Qed.

Lemma block_control_raw : forall b dec sc k os k', block_control b ->
  lower_block dec sc k b = Ok (os, k') -> exists a l, raw os = a ++ ILeft :: l.
Proof.
  induction b as [|s b IH]; intros dec sc k os k' HC HL; [destruct HC|].
  cbn [lower_block] in HL. okbind HL. okbind HL. injection HL as <- <-.
  rewrite raw_oapp. destruct HC as [HC|HC].
  - destruct (control_raw _ _ _ _ _ _ HC E) as (a & l & ->). exists a, (l ++ raw o0).
    now rewrite <- app_assoc.
  - destruct (IH _ _ _ _ _ HC E0) as (a & l & ->). exists (raw o ++ a), l.
    now rewrite app_assoc.
Qed.

(** Control flow in the first block of an [if] with an [else] is refused. *)
Lemma if_else_refused dec c th b : block_control th -> straight b ->
  forall g, compile dec [BCons (SIf c th (AElse b)) BNil] <> Ok g.
Proof.
  intros HT HS g H. unfold compile in H. apply bind_ok in H. destruct H as (os & E & H).
  cbn [lower_algs lower_block lower_stmt lower_alt] in E.
  apply bind_ok in E. destruct E as ([o k] & E1 & E). apply bind_ok in E1.
  destruct E1 as ([o1 k1] & E2 & E1). cbn [fst snd bind] in E1. injection E1 as <- <-.
  apply bind_ok in E2. destruct E2 as (lc & _ & E2). apply bind_ok in E2.
  destruct E2 as ([ot k2] & Et & E2). cbn [fst snd] in E2. apply bind_ok in E2.
  destruct E2 as ([[has oe] k3] & Ee & E2). cbn [fst snd] in E2. injection E2 as <- <-.
  apply bind_ok in Ee. destruct Ee as ([ob k4] & Eb & Ee). cbn [fst snd] in Ee.
  injection Ee as <- <- <-.
  apply bind_ok in E. destruct E as (u & _ & E). cbn [fst snd bind lower_algs] in E.
  injection E as <-.
  destruct (straight_conv b dec [] k2 ob k4 5 [] (TBr 3) None 1 false 6 HS Eb) as (B & _ & _ & _ & _).
  destruct (block_control_raw _ _ _ _ _ _ HT Et) as (ra & rl & Hraw).
  cbn [oapp] in H.
  unfold convert in H. cbn [conv_algs conv] in H. rewrite B in H. cbn [bind fst snd app] in H.
  rewrite Hraw in H.
  match type of H with (_ <- assert_ok (legal ?g0);; _) = _ => assert (legal g0 = false) as HF end.
  { unfold legal. cbn [reach length flat_map succs find_blk Nat.eqb app].
    vm_compute (nodup _ _). cbn [forallb fst snd existsb Nat.eqb negb orb app].
    rewrite left_dirty. cbn. rewrite ?andb_false_r. reflexivity. }
  rewrite HF in H. discriminate H.
Qed.

(** Statements after a [return] are refused. *)
Lemma after_return_refused dec x e b : forall g,
  compile dec [BCons SReturn (BCons (SAssign x e) b)] <> Ok g.
Proof.
  intros g H. unfold compile in H. apply bind_ok in H. destruct H as (os & E & _).
  cbn [lower_algs lower_block lower_stmt bind fst snd] in E.
  apply bind_ok in E. destruct E as ([o k] & E1 & E). apply bind_ok in E1.
  destruct E1 as ([o1 k1] & E2 & E1). cbn [fst snd] in E1. injection E1 as <- <-.
  apply bind_ok in E2. destruct E2 as ([o2 k2] & E3 & E2). cbn [fst snd] in E2.
  apply bind_ok in E2. destruct E2 as ([o3 k3] & E4 & E2). injection E2 as <- <-.
  apply bind_ok in E3. destruct E3 as (le & _ & E3). apply bind_ok in E3.
  destruct E3 as (rf & _ & E3). destruct rf; [|discriminate]. injection E3 as <- <-.
  cbn in E. discriminate E.
Qed.

(** ** Loops that do not stop *)

Lemma for_diverges (I : istate -> Prop) k hi body st :
  (forall s, I s -> exists h, leval s hi = Some h /\ slots s k <= h) ->
  (forall s s1 o, I s -> run_ops s body s1 o -> o = Normal /\
     forall d, leval s1 st = Some d -> I (IS (vars s1) (set (slots s1) k (slots s1 k + d)))) ->
  forall s s' o, run_for s k hi body st s' o -> ~ I s.
Proof.
  intros H1 H2 s s' o HR. induction HR; intros HI;
    destruct (H1 _ HI) as (h' & E & L); assert (h' = h) by congruence; subst h'.
  - lia.
  - destruct (H2 _ _ _ HI H3) as [_ HN]. apply (IHHR H1 H2). now apply HN.
  - destruct (H2 _ _ _ HI H3) as [HO _]. discriminate HO.
  - destruct (H2 _ _ _ HI H3) as [HO _]. discriminate HO.
Qed.

(** A compiled function returns exactly when its operations have a run. *)
Lemma compile_runs dec algs os : lower_algs dec 0 algs = Ok os -> covered_algs os ->
  exists g, compile dec algs = Ok g /\
    forall st fuel r, run_function g fuel st = Ok r ->
      exists s', run_algs (IS st (fun _ => 0)) os s' /\ vars s' = r.
Proof.
  intros E Co. destruct (convert_correct os Co) as (g & b & Eg & Hl & Hf & Y).
  exists g. split.
  - unfold compile. rewrite E. cbn [bind]. rewrite Eg. cbn [bind]. rewrite Hl. reflexivity.
  - intros st fuel r H. unfold run_function in H. rewrite Hf in H.
    apply bind_ok in H. destruct H as (s' & HR & H). injection H as <-.
    exists s'. split; [|reflexivity]. apply Y. eauto.
Qed.

Lemma iter_not_breaking ix st x vs l b st' o : exec_iter ix st x vs l b st' o -> o <> Breaking.
Proof. induction 1; try discriminate. assumption. Qed.
