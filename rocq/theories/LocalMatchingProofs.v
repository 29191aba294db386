(** The local matching options of an incidence matrix. *)
From Coq Require Import ZArith List Bool Lia ZifyBool.
From Verif Require Import RangeModel MDRangeModel Result BoxSetModel AccessModel Spec AccessSpec
  RangeProofs MDRangeProofs BoxListProofs BoxSetProofs AccessProofs AccessImageProofs
  AccessInverseProofs AccessPreimageProofs AccessInverseExactProofs AccessCombineProofs ListTac
  MCIMModel MCIMSpec MCIMProofs MCIMSetProofs MCIMOpsProofs LocalMatchingModel.
Import ListNotations.
Open Scope Z_scope.

Lemma in_elements : forall s p, In p (bs_elements s) <-> in_boxes p s.
Proof. intros s p. unfold bs_elements. rewrite nodup_In. apply in_bs_points. Qed.
Lemma elements_nodup : forall s, NoDup (bs_elements s).
Proof. intros. apply NoDup_nodup. Qed.

(** At most one variable per equation and at most one equation per variable. *)
Definition one_to_one (R : point -> point -> Prop) : Prop :=
  (forall e v w, R e v -> R e w -> v = w) /\ (forall e e' v, R e v -> R e' v -> e = e').

Lemma count_spec : forall n k M l, mx n k M -> (forall e v, In (e, v) l -> cell M e v) ->
  NoDup l -> (forall p q, In p l -> In q l -> stored M (fst p) (snd p) -> stored M (fst q) (snd q) -> p = q) ->
  exists c, count_entries M l = Ok c /\ (c <= 1)%nat /\ (c <> O -> exists p, In p l /\ stored M (fst p) (snd p)).
Proof.
  intros n k M l X. induction l as [|[e v] l IH]; intros C N U; cbn [count_entries].
  - exists 0%nat. split; [reflexivity|]. split; [lia|]. lia.
  - destruct (get_spec n k M e v X) as (b & -> & Hb); [apply C; now left|]. cbn [bind].
    destruct IH as (c & -> & Hc & Ex).
    + intros; apply C; now right.
    + now inversion N.
    + intros; apply U; auto; now right.
    + cbn [bind]. destruct b.
      * destruct c as [|c].
        -- exists 1%nat. split; [reflexivity|]. split; [lia|]. intros _. exists (e, v). split; [now left|]. now apply Hb.
        -- exfalso. destruct Ex as (p & Hp & Sp); [lia|]. inversion N as [|x l' Nx Nl]; subst. apply Nx.
           rewrite (U (e, v) p); auto; [now left|now right|now apply Hb].
      * exists c. split; [reflexivity|]. split; [assumption|]. intros Hn. destruct (Ex Hn) as (p & Hp & Sp). exists p. split; [now right|assumption].
Qed.

Lemma at_most_one_spec : forall n k M ls, mx n k M ->
  (forall l, In l ls -> (forall e v, In (e, v) l -> cell M e v) /\ NoDup l /\
     (forall p q, In p l -> In q l -> stored M (fst p) (snd p) -> stored M (fst q) (snd q) -> p = q)) ->
  at_most_one M ls = Ok true.
Proof.
  intros n k M ls X. induction ls as [|l ls IH]; intros H; cbn [at_most_one]; [reflexivity|].
  destruct (H l (or_introl eq_refl)) as (C & N & U). destruct (count_spec n k M l X C N U) as (c & -> & Hc & _). cbn [bind].
  destruct (Nat.ltb_spec 1 c); [lia|]. apply IH. intros; apply H; now right.
Qed.

Lemma NoDup_map_inj : forall A B (f : A -> B) l, (forall x y, f x = f y -> x = y) -> NoDup l -> NoDup (map f l).
Proof.
  intros A B f l H N. induction N as [|x l Hx N IH]; cbn; constructor; auto.
  intros C. apply in_map_iff in C as (y & E & Hy). apply H in E as ->. auto.
Qed.

Lemma valid_spec : forall n k M, mx n k M -> one_to_one (fun e v => length e = n /\ stored M e v) -> lm_checked M = Ok M.
Proof.
  intros n k M X (U1 & U2). unfold lm_checked, lm_valid.
  assert (Le : forall e, In e (bs_elements (meqs M)) -> length e = n).
  { intros e He. apply in_elements in He. now apply (bs_of_length n (meqs M) e (proj1 (x_eqs _ _ _ X))). }
  rewrite (at_most_one_spec n k M _ X).
  - cbn [bind]. rewrite (at_most_one_spec n k M _ X).
    + reflexivity.
    + intros l Hl. apply in_map_iff in Hl as (v & <- & Hv). apply in_elements in Hv. split; [|split].
      * intros e v' H. apply in_map_iff in H as (e' & E & He). injection E as <- <-. apply in_elements in He. split; assumption.
      * apply NoDup_map_inj; [congruence|apply elements_nodup].
      * intros p q Hp Hq. apply in_map_iff in Hp as (e & <- & He), Hq as (e' & <- & He'). cbn. intros H1 H2. rewrite (U2 e e' v); auto.
  - intros l Hl. apply in_map_iff in Hl as (e & <- & He'). pose proof He' as He. apply in_elements in He. split; [|split].
    + intros e' v H. apply in_map_iff in H as (v' & E & Hv). injection E as <- <-. apply in_elements in Hv. split; assumption.
    + apply NoDup_map_inj; [congruence|apply elements_nodup].
    + intros p q Hp Hq. apply in_map_iff in Hp as (v & <- & _), Hq as (v' & <- & _). cbn. intros H1 H2. rewrite (U1 e v v'); auto.
Qed.

(** *** The boxes of the rotation generator. *)
Lemma unused_length : forall us b, length us = length b -> Forall range_ok b -> Forall range_ok (unused_ranges us b).
Proof.
  induction us as [|u us IH]; intros [|r b] L F; cbn [unused_ranges]; try constructor. inversion F; subst. cbn in L.
  destruct u; [constructor; auto|apply IH; auto].
Qed.

(** The coordinates of a point along the unused dimensions. *)
Fixpoint unused_coords (us : list nat) (e : point) : point :=
  match us, e with
  | u :: us', v :: e' => match u with O => v :: unused_coords us' e' | _ => unused_coords us' e' end
  | _, _ => []
  end.

Lemma unused_in : forall us b e, length us = length b -> in_box e b -> in_box (unused_coords us e) (unused_ranges us b).
Proof.
  induction us as [|u us IH]; intros b e L H; destruct H as [|v r e b Hv H]; cbn in L; try discriminate; cbn [unused_coords unused_ranges].
  - constructor.
  - destruct u; [constructor; [assumption|]|]; (apply IH; [lia|assumption]).
Qed.

Lemma fill_in : forall us b p e, length us = length b -> in_box p (unused_ranges us b) ->
  (in_box e (fill_unused us b p) <-> in_box e b /\ unused_coords us e = p).
Proof.
  induction us as [|u us IH]; intros b p e L Hp; destruct b as [|r b]; cbn in L; try discriminate.
  - cbn in *. inversion Hp; subst. split; [intros H; split; [assumption|reflexivity]|tauto].
  - cbn [unused_ranges fill_unused] in *. destruct u.
    + inversion Hp as [|v r' p' b' Hv Hp' E1 E2]; subst. split.
      * intros H. inversion H as [|x r' e' b' Hx He E1 E2]; subst. apply IH in He as (He & Ec); [|lia|assumption].
        unfold in_range in Hx. cbn in Hx. assert (x = v) by lia. subst x. split; [constructor; assumption|]. cbn. now rewrite Ec.
      * intros (H & E). inversion H as [|x r' e' b' Hx He E1 E2]; subst. cbn in E. injection E as -> E. constructor; [unfold in_range; cbn; lia|].
        apply IH; [lia|assumption|auto].
    + split.
      * intros H. inversion H as [|x r' e' b' Hx He E1 E2]; subst. apply IH in He as (He & Ec); [|lia|assumption].
        split; [constructor; assumption|]. cbn. assumption.
      * intros (H & E). inversion H as [|x r' e' b' Hx He E1 E2]; subst. cbn in Hp |- *. constructor; [assumption|].
        apply IH; [lia|assumption|auto].
Qed.

Lemma fill_of : forall us b p n, length us = length b -> in_box p (unused_ranges us b) -> box_of n b -> box_of n (fill_unused us b p).
Proof.
  intros us b p n L Hp ((N & F) & Lb).
  assert (X : forall us b p, length us = length b -> in_box p (unused_ranges us b) -> Forall range_ok b ->
    Forall range_ok (fill_unused us b p) /\ length (fill_unused us b p) = length b).
  { clear. induction us as [|u us IH]; intros [|r b] p L Hp F; cbn in L; try discriminate; cbn; [auto|].
    inversion F; subst. cbn [unused_ranges] in Hp. destruct u.
    - inversion Hp as [|v r' p' b' Hv Hp' E1 E2]; subst. destruct (IH b p') as (I1 & I2); auto. split; [|cbn; lia].
      constructor; [unfold range_ok; cbn; lia|assumption].
    - destruct (IH b p) as (I1 & I2); auto. split; [constructor; assumption|cbn; lia]. }
  destruct (X us b p L Hp F) as (X1 & X2). split; [|lia]. split; [|assumption]. intros E. rewrite E in X2. destruct b; [congruence|discriminate].
Qed.

Lemma boxes_spec : forall us b n, length us = n -> box_of n b -> forall c, In c (gen_boxes us b) ->
  box_of n c /\ forall e, in_box e c -> in_box e b /\ forall e', in_box e' c -> unused_coords us e = unused_coords us e'.
Proof.
  intros us b n L B c Hc. assert (Lb : length us = length b) by (destruct B; lia). unfold gen_boxes in Hc.
  destruct (unused_ranges us b) as [|r u] eqn:E.
  - destruct Hc as [<-|[]]. split; [assumption|]. intros e He. split; [assumption|]. intros e' He'.
    apply (unused_in us b _ Lb) in He, He'. rewrite E in He, He'. inversion He; inversion He'. congruence.
  - rewrite <- E in Hc. apply in_map_iff in Hc as (p & <- & Hp). apply in_box_points in Hp. split; [now apply fill_of|].
    intros e He. apply (fill_in us b p e Lb Hp) in He as (H1 & H2). split; [assumption|]. intros e' He'.
    apply (fill_in us b p e' Lb Hp) in He' as (H3 & H4). congruence.
Qed.

Lemma boxes_cover : forall us b n e, length us = n -> box_of n b -> in_box e b -> exists c, In c (gen_boxes us b) /\ in_box e c.
Proof.
  intros us b n e L B He. assert (Lb : length us = length b) by (destruct B; lia). pose proof (unused_in us b e Lb He) as Hu. unfold gen_boxes.
  destruct (unused_ranges us b) as [|r u] eqn:E.
  - exists b. split; [now left|assumption].
  - rewrite <- E in *. exists (fill_unused us b (unused_coords us e)). split.
    + apply in_map_iff. eexists. split; [reflexivity|]. now apply in_box_points.
    + apply fill_in; auto.
Qed.

Lemma length_range_values : forall r, length (range_values r) = Z.to_nat (range_size r).
Proof. intros. unfold range_values. now rewrite map_length, seq_length. Qed.
Lemma length_flat_map_const : forall A B (f : A -> list B) l c, (forall x, length (f x) = c) -> length (flat_map f l) = (length l * c)%nat.
Proof. intros A B f l c H. induction l as [|x l IH]; cbn; [reflexivity|]. rewrite app_length, H, IH. reflexivity. Qed.
Lemma fold_mul : forall (l : mdrange) c, fold_left (fun c r => (c * Z.to_nat (range_size r))%nat) l c =
  (c * length (box_points l))%nat.
Proof.
  induction l as [|r l IH]; intros c; cbn [fold_left box_points]; [cbn; lia|].
  rewrite IH, (length_flat_map_const _ _ _ _ (length (box_points l))) by (intros; apply map_length). rewrite length_range_values. lia.
Qed.
Lemma boxes_length : forall us b,
  length (gen_boxes us b) = fold_left (fun c r => (c * Z.to_nat (range_size r))%nat) (unused_ranges us b) 1%nat.
Proof.
  intros us b. rewrite fold_mul. unfold gen_boxes. destruct (unused_ranges us b) as [|r u] eqn:E; [reflexivity|].
  rewrite map_length. lia.
Qed.

(** A rotation-translation is one-to-one where the unused coordinates agree. *)
Lemma induction_adims : forall n e, roto_expr n e -> adims e = match inductionVar e with Some d => [d] | None => [] end.
Proof. intros n e H. destruct H; reflexivity. Qed.

Lemma usages_zero : forall n rs d, Forall (roto_expr n) rs -> (d < n)%nat -> nth d (usages n rs) 0%nat <> 0%nat -> In d (flat_map adims rs).
Proof.
  intros n rs d F Hd H. unfold usages in H. set (u := fun d => length _) in H.
  rewrite (nth_indep _ 0%nat (u 0%nat)) in H by (rewrite map_length, seq_length; lia).
  rewrite map_nth, seq_nth in H by lia. cbn [Nat.add] in H. unfold u in H.
  destruct (filter _ rs) as [|e l] eqn:E; [cbn in H; lia|].
  assert (In e rs /\ (match inductionVar e with Some x => Nat.eqb x d | None => false end) = true) as (He & Hi).
  { apply (filter_In (fun e => match inductionVar e with Some x => Nat.eqb x d | None => false end)). rewrite E. now left. }
  apply in_flat_map. exists e. split; [assumption|]. rewrite Forall_forall in F. rewrite (induction_adims n e (F e He)).
  destruct (inductionVar e); [|discriminate]. apply Nat.eqb_eq in Hi. now left.
Qed.

Lemma values_dim : forall n rs d p q v, Forall (roto_expr n) rs -> In d (flat_map adims rs) -> affine_values p rs = Some v -> affine_values q rs = Some v ->
  nth_error p d = nth_error q d.
Proof.
  intros n rs d p q. induction rs as [|e rs IH]; intros v F Hd Hp Hq; [contradiction|]. inversion F as [|x y Fe Fr]; subst. cbn [affine_values] in *.
  destruct (aeval p e) as [a|] eqn:E1; [|discriminate]. destruct (affine_values p rs) as [w|] eqn:E2; [|discriminate]. injection Hp as <-.
  destruct (aeval q e) as [a'|] eqn:E3; [|discriminate]. destruct (affine_values q rs) as [w'|] eqn:E4; [|discriminate]. injection Hq as -> ->.
  cbn [flat_map] in Hd. apply in_app_iff in Hd as [Hd|Hd]; [|now apply IH with w].
  destruct Fe as [d' Hd'|c|d' c Hd' Hc]; cbn in Hd.
  - destruct Hd as [->|[]]. cbn in E1, E3. congruence.
  - contradiction.
  - destruct Hd as [->|[]]. cbn in E1, E3. destruct (nth_error p d); [|discriminate]. destruct (nth_error q d); [|discriminate].
    injection E1 as E1. injection E3 as E3. f_equal. lia.
Qed.

Lemma coords_eq : forall us e e', length e = length us -> length e' = length us -> unused_coords us e = unused_coords us e' ->
  (forall d, (d < length us)%nat -> nth d us 0%nat <> 0%nat -> nth_error e d = nth_error e' d) -> e = e'.
Proof.
  induction us as [|u us IH]; intros e e' L L' E H; destruct e as [|x e], e' as [|x' e']; cbn in L, L'; try discriminate; [reflexivity|].
  assert (T : e = e').
  { apply IH; [lia|lia| |].
    - cbn in E. destruct u; [injection E; auto|assumption].
    - intros d Hd N. apply (H (S d)); [cbn; lia|assumption]. }
  subst e'. f_equal. cbn in E. destruct u; [injection E; auto|].
  specialize (H 0%nat). cbn in H. assert (Some x = Some x') by (apply H; lia). congruence.
Qed.

Section M.
Variable m : mlir.
Variable Mok : mlir_ok m.

(** What a generator gives. *)
Record generated (n k : nat) (eqs vars : bset) (f : afun) (L : list mcim) : Prop := {
  gn_amount : amount eqs f = Ok (length L);
  gn_sound : forall T, In T L -> mx n k T /\ meqs T = eqs /\ mvars T = vars /\
    (forall g, In g (mgroups T) -> gfun g = f) /\ one_to_one (fun e v => length e = n /\ stored T e v) /\
    (forall e v, length e = n -> stored T e v -> in_boxes e eqs /\ maps_to f e v);
  gn_complete : forall e v, in_boxes e eqs -> maps_to f e v -> exists T, In T L /\ stored T e v }.


Lemma single_apply : forall n k eqs vars f s, good n k f -> (1 <= n)%nat -> bs_of n eqs -> eqs <> [] -> bs_of k vars -> vars <> [] ->
  box_of n s -> (forall e, in_box e s -> in_boxes e eqs) -> (forall e v, in_boxes e eqs -> maps_to f e v -> in_boxes v vars) ->
  (forall e e' v, in_box e s -> in_box e' s -> maps_to f e v -> maps_to f e' v -> e = e') ->
  exists T, (M <- mc_apply m (mc_new eqs vars) [s] f ;; lm_checked M) = Ok T /\ mx n k T /\ meqs T = eqs /\ mvars T = vars /\
    (forall g, In g (mgroups T) -> gfun g = f) /\ one_to_one (fun e v => length e = n /\ stored T e v) /\
    (forall e v, stored T e v <-> in_box e s /\ maps_to f e v).
Proof.
  intros n k eqs vars f s G Hn E Ne V Nv S Sub In1 Inj. assert (Hk : (1 <= k)%nat) by apply G.
  pose proof (new_mx n k eqs vars Hn Hk E Ne V Nv) as X.
  destruct (apply_spec m Mok n k _ [s] f X G) as (T & ET & XT & QT & WT & PT & FT & ST).
  - constructor; [assumption|constructor].
  - discriminate.
  - destruct f; cbn; auto. left. eauto.
  - intros e (b & [<-|[]] & He). cbn. auto.
  - cbn [mc_new meqs mvars mpoints mgroups] in *. rewrite ET. cbn [bind].
    assert (ST' : forall e v, stored T e v <-> in_box e s /\ maps_to f e v).
    { intros e v. rewrite ST. split.
      - intros [[(b & [] & _)|(g & [] & _)]|((b & [<-|[]] & He) & Hm & _)]. auto.
      - intros (He & Hm). right. split; [exists s; split; [now left|assumption]|]. split; [assumption|]. eauto. }
    assert (O : one_to_one (fun e v => length e = n /\ stored T e v)).
    { split.
      - intros e v w (_ & H1) (_ & H2). apply ST' in H1 as (_ & H1), H2 as (_ & H2). exact (maps_to_inj f e v w H1 H2).
      - intros e e' v (_ & H1) (_ & H2). apply ST' in H1 as (H1 & H1'), H2 as (H2 & H2'). eauto. }
    exists T. split; [now apply (valid_spec n k)|]. split; [assumption|]. split; [assumption|]. split; [assumption|]. split; [|split; assumption].
    intros g Hg. destruct (FT g Hg) as [->|(g0 & [] & _)]. reflexivity.
Qed.

Lemma roto_one_to_one : forall n k rs s e e' v, good n k (AFRoto n rs) -> box_of n s -> in_box e s -> in_box e' s ->
  unused_coords (usages n rs) e = unused_coords (usages n rs) e' ->
  maps_to (AFRoto n rs) e v -> maps_to (AFRoto n rs) e' v -> e = e'.
Proof.
  intros n k rs s e e' v G (_ & Ls) He He' U H1 H2. pose proof (af_wf_good n k _ G) as W. cbn in W. destruct W as (_ & _ & _ & _ & F).
  pose proof (in_box_length _ _ He) as L1. pose proof (in_box_length _ _ He') as L2.
  apply (maps_fval n k _ _ _ G) in H1; [|lia]. apply (maps_fval n k _ _ _ G) in H2; [|lia]. cbn in H1, H2.
  assert (Lu : length (usages n rs) = n) by (unfold usages; now rewrite map_length, seq_length).
  apply (coords_eq (usages n rs)); [lia|lia|assumption|]. intros d Hd N. apply (values_dim n rs d e e' v F); auto.
  apply (usages_zero n); auto. lia.
Qed.

Lemma point_box : forall n (e : point), length e = n -> (1 <= n)%nat -> box_of n (mdrange_of_point e).
Proof. intros. now apply of_point_box. Qed.

Lemma constant_generated : forall n k eqs vars rs, good n k (AFAffineConstant n rs) -> (1 <= n)%nat -> bs_of n eqs -> eqs <> [] -> bs_of k vars -> vars <> [] ->
  (forall e v, in_boxes e eqs -> maps_to (AFAffineConstant n rs) e v -> in_boxes v vars) ->
  exists L, gen_of m eqs vars (AFAffineConstant n rs) = Ok L /\ generated n k eqs vars (AFAffineConstant n rs) L.
Proof.
  intros n k eqs vars rs G Hn E Ne V Nv Cl. cbn [gen_of]. unfold gen_constant.
  assert (P : forall e, in_boxes e eqs -> exists T, (M <- mc_apply m (mc_new eqs vars) (bs_point e) (AFAffineConstant n rs) ;; lm_checked M) = Ok T /\
    mx n k T /\ meqs T = eqs /\ mvars T = vars /\ (forall g, In g (mgroups T) -> gfun g = AFAffineConstant n rs) /\
    one_to_one (fun e v => length e = n /\ stored T e v) /\
    (forall e' v, stored T e' v <-> in_box e' (mdrange_of_point e) /\ maps_to (AFAffineConstant n rs) e' v)).
  { intros e He. apply single_apply; auto.
    - apply point_box; [now apply (bs_of_length n eqs)|assumption].
    - intros e' He'. apply of_point_in in He' as ->. assumption.
    - intros e1 e2 v H1 H2 _ _. apply of_point_in in H1, H2. congruence. }
  destruct (map_res_exists _ _ (fun e => M <- mc_apply m (mc_new eqs vars) (bs_point e) (AFAffineConstant n rs) ;; lm_checked M) (bs_elements eqs)) as (L & EL & F).
  { intros e He. apply in_elements in He. destruct (P e He) as (T & ET & _). eauto. }
  exists L. split; [assumption|]. constructor.
  - cbn [amount]. unfold bs_size. now rewrite (map_res_length _ _ _ _ _ EL).
  - intros T HT. destruct (map_res_in _ _ _ _ _ T EL HT) as (e & He & Ee). apply in_elements in He.
    destruct (P e He) as (T' & ET & X & Q & W & Fg & O & St). rewrite ET in Ee. injection Ee as <-.
    split; [assumption|]. split; [assumption|]. split; [assumption|]. split; [assumption|]. split; [assumption|].
    intros e' v _ H. apply St in H as (H1 & H2). apply of_point_in in H1 as ->. auto.
  - intros e v He Hm. destruct (map_res_in2 _ _ _ _ _ e EL) as (T & HT & ET); [now apply in_elements|].
    exists T. split; [assumption|]. destruct (P e He) as (T' & ET' & _ & _ & _ & _ & _ & St). rewrite ET' in ET. injection ET as <-.
    apply St. split; [now apply of_point_in|assumption].
Qed.

Lemma roto_generated : forall n k eqs vars rs, good n k (AFRoto n rs) -> (1 <= n)%nat -> bs_of n eqs -> eqs <> [] -> bs_of k vars -> vars <> [] ->
  (forall e v, in_boxes e eqs -> maps_to (AFRoto n rs) e v -> in_boxes v vars) ->
  exists L, gen_of m eqs vars (AFRoto n rs) = Ok L /\ generated n k eqs vars (AFRoto n rs) L.
Proof.
  intros n k eqs vars rs G Hn E Ne V Nv Cl. cbn [gen_of]. unfold gen_roto.
  assert (Lu : length (usages n rs) = n) by (unfold usages; now rewrite map_length, seq_length).
  assert (EB : forall b, In b eqs -> box_of n b) by (intros b Hb; unfold bs_of in E; rewrite Forall_forall in E; auto).
  assert (P : forall c, In c (flat_map (gen_boxes (usages n rs)) eqs) -> exists T, (M <- mc_apply m (mc_new eqs vars) [c] (AFRoto n rs) ;; lm_checked M) = Ok T /\
    mx n k T /\ meqs T = eqs /\ mvars T = vars /\ (forall g, In g (mgroups T) -> gfun g = AFRoto n rs) /\
    one_to_one (fun e v => length e = n /\ stored T e v) /\
    (forall e' v, stored T e' v <-> in_box e' c /\ maps_to (AFRoto n rs) e' v)).
  { intros c Hc. apply in_flat_map in Hc as (b & Hb & Hc). destruct (boxes_spec _ b n Lu (EB b Hb) c Hc) as (Bc & Sc). apply single_apply; auto.
    - intros e He. exists b. split; [assumption|]. apply (Sc e He).
    - intros e1 e2 v H1 H2 M1 M2. apply (roto_one_to_one n k rs c e1 e2 v G Bc H1 H2); auto. now apply Sc. }
  destruct (map_res_exists _ _ (fun c => M <- mc_apply m (mc_new eqs vars) [c] (AFRoto n rs) ;; lm_checked M) (flat_map (gen_boxes (usages n rs)) eqs)) as (L & EL & F).
  { intros c Hc. destruct (P c Hc) as (T & ET & _). eauto. }
  exists L. split; [assumption|]. constructor.
  - cbn [amount]. f_equal. rewrite (map_res_length _ _ _ _ _ EL). clear. induction eqs as [|b eqs IH]; cbn [map list_sum flat_map fold_right]; [reflexivity|].
    rewrite app_length, boxes_length. f_equal. exact IH.
  - intros T HT. destruct (map_res_in _ _ _ _ _ T EL HT) as (c & Hc & Ec).
    destruct (P c Hc) as (T' & ET & X & Q & W & Fg & O & St). rewrite ET in Ec. injection Ec as <-.
    split; [assumption|]. split; [assumption|]. split; [assumption|]. split; [assumption|]. split; [assumption|].
    intros e' v _ H. apply St in H as (H1 & H2). split; [|assumption]. apply in_flat_map in Hc as (b & Hb & Hc).
    exists b. split; [assumption|]. now apply (boxes_spec _ b n Lu (EB b Hb) c Hc).
  - intros e v (b & Hb & He) Hm. destruct (boxes_cover _ b n e Lu (EB b Hb) He) as (c & Hc & Hec).
    assert (HF : In c (flat_map (gen_boxes (usages n rs)) eqs)) by (apply in_flat_map; eauto).
    destruct (map_res_in2 _ _ _ _ _ c EL HF) as (T & HT & ET).
    exists T. split; [assumption|]. destruct (P c HF) as (T' & ET' & _ & _ & _ & _ & _ & St). rewrite ET' in ET. injection ET as <-.
    apply St. auto.
Qed.

Lemma concat_lengths : forall A (l : list (list A)), length (concat l) = list_sum (map (@length A) l).
Proof. induction l as [|x l IH]; cbn; [reflexivity|]. now rewrite app_length, IH. Qed.

Lemma single_set : forall n k eqs vars f e v, (1 <= n)%nat -> (1 <= k)%nat -> bs_of n eqs -> eqs <> [] -> bs_of k vars -> vars <> [] ->
  in_boxes e eqs -> in_boxes v vars ->
  exists T, (M <- mc_set m (mc_new eqs vars) e v ;; lm_checked M) = Ok T /\ mx n k T /\ meqs T = eqs /\ mvars T = vars /\
    (forall g, In g (mgroups T) -> gfun g = f) /\ one_to_one (fun e v => length e = n /\ stored T e v) /\
    (forall e' v', length e' = n -> (stored T e' v' <-> e' = e /\ v' = v)).
Proof.
  intros n k eqs vars f e v Hn Hk E Ne V Nv He Hv. pose proof (new_mx n k eqs vars Hn Hk E Ne V Nv) as X.
  destruct (set_spec m Mok n k _ e v X) as (T & ET & XT & QT & WT & FT & ST); [split; assumption|cbn; contradiction|].
  cbn [mc_new meqs mvars mgroups] in *. rewrite ET. cbn [bind].
  assert (ST' : forall e' v', length e' = n -> (stored T e' v' <-> e' = e /\ v' = v)).
  { intros e' v' L. rewrite (ST e' v' L). split; [|auto]. intros [[(b & [] & _)|(g & [] & _)]|H]. assumption. }
  assert (O : one_to_one (fun e v => length e = n /\ stored T e v)).
  { split.
    - intros a b c (L & H1) (_ & H2). apply ST' in H1, H2; auto. destruct H1, H2. congruence.
    - intros a b c (L1 & H1) (L2 & H2). apply ST' in H1, H2; auto. destruct H1, H2. congruence. }
  exists T. split; [now apply (valid_spec n k)|]. repeat (split; [assumption|]). split; [|split; assumption].
  intros g Hg. destruct (FT g Hg) as (g0 & [] & _).
Qed.

Lemma default_generated : forall n k eqs vars rs, good n k (AFGeneric n rs) -> (1 <= n)%nat -> bs_of n eqs -> eqs <> [] -> bs_of k vars -> vars <> [] ->
  (forall e v, in_boxes e eqs -> maps_to (AFGeneric n rs) e v -> in_boxes v vars) ->
  exists L, gen_of m eqs vars (AFGeneric n rs) = Ok L /\ generated n k eqs vars (AFGeneric n rs) L.
Proof.
  intros n k eqs vars rs G Hn E Ne V Nv Cl. cbn [gen_of]. unfold gen_default. set (f := AFGeneric n rs) in *. assert (Hk : (1 <= k)%nat) by apply G.
  assert (MP : forall e, in_boxes e eqs -> exists v s, af_map_point f e = Ok s /\ bs_elements s = [v] /\ maps_to f e v).
  { intros e He. destruct (good_maps n k f e G) as (v & Lv & Hv); [now apply (bs_of_length n eqs)|].
    pose proof Hv as (s & Es & Hs). exists v, s. split; [assumption|]. split; [|assumption].
    assert (A : forall x, In x (bs_elements s) <-> x = v) by (intros; now rewrite in_elements).
    pose proof (elements_nodup s) as N. destruct (bs_elements s) as [|a [|b l]].
    - exfalso. apply (proj2 (A v)). reflexivity.
    - f_equal. apply A. now left.
    - exfalso. assert (a = v) by (apply A; now left). assert (b = v) by (apply A; right; now left). subst. inversion N; subst. apply H1. now left. }
  set (F := fun e => s <- af_map_point f e ;; map_res (fun v => M <- mc_set m (mc_new eqs vars) e v ;; lm_checked M) (bs_elements s)).
  assert (P : forall e, in_boxes e eqs -> exists v T, maps_to f e v /\ F e = Ok [T] /\
    mx n k T /\ meqs T = eqs /\ mvars T = vars /\ (forall g, In g (mgroups T) -> gfun g = f) /\
    one_to_one (fun e v => length e = n /\ stored T e v) /\ (forall e' v', length e' = n -> (stored T e' v' <-> e' = e /\ v' = v))).
  { intros e He. destruct (MP e He) as (v & s & Es & El & Hm).
    destruct (single_set n k eqs vars f e v) as (T & ET & R); auto; [eauto|].
    exists v, T. split; [assumption|]. split; [|assumption]. unfold F. rewrite Es. cbn [bind]. rewrite El. cbn [map_res]. rewrite ET. reflexivity. }
  destruct (map_res_exists _ _ F (bs_elements eqs)) as (L & EL & FL).
  { intros e He. apply in_elements in He. destruct (P e He) as (v & T & _ & ET & _). eauto. }
  exists (concat L). split; [rewrite EL; reflexivity|]. constructor.
  - unfold f at 1. cbn [amount]. change (AFGeneric n rs) with f. set (A := fun e => s <- af_map_point f e ;; Ok (bs_size s)). assert (EA : map_res A (bs_elements eqs) = Ok (map (@length mcim) L)).
    { assert (I : forall e, In e (bs_elements eqs) -> in_boxes e eqs) by (intros e He; now apply in_elements).
      revert L EL FL I. generalize (bs_elements eqs) as l. induction l as [|e l IH]; intros L EL FL I; cbn [map_res] in *.
      - injection EL as <-. reflexivity.
      - apply bind_ok in EL as (y & Ey & EL). apply bind_ok in EL as (L' & EL & EE). injection EE as <-.
        destruct (MP e) as (v & s & Es & El & _); [apply I; now left|].
        destruct (P e) as (v' & T & _ & EF & _); [apply I; now left|]. rewrite EF in Ey. injection Ey as <-.
        unfold A at 1. rewrite Es. cbn [bind]. inversion FL; subst. rewrite (IH L' EL); [|assumption|intros; apply I; now right].
        cbn. unfold bs_size. now rewrite El. }
    rewrite EA. cbn [bind]. now rewrite concat_lengths.
  - intros T HT. apply in_concat in HT as (l & Hl & HT). destruct (map_res_in _ _ _ _ _ l EL Hl) as (e & He & Ee). apply in_elements in He.
    destruct (P e He) as (v & T' & Hm & ET & X & Q & W & Fg & O & St). rewrite ET in Ee. injection Ee as <-. destruct HT as [<-|[]].
    repeat (split; [assumption|]). intros e' v' L' H. apply St in H as (-> & ->); auto.
  - intros e v He Hm. destruct (map_res_in2 _ _ _ _ _ e EL) as (l & Hl & Ee); [now apply in_elements|].
    destruct (P e He) as (v' & T & Hm' & ET & _ & _ & _ & _ & _ & St). rewrite ET in Ee. injection Ee as <-.
    exists T. split; [apply in_concat; exists [T]; split; [assumption|now left]|]. apply St; [now apply (bs_of_length n eqs)|].
    split; [reflexivity|]. exact (maps_to_inj f e v v' Hm Hm').
Qed.

Lemma generated_all : forall n k eqs vars f, good n k f -> (1 <= n)%nat -> bs_of n eqs -> eqs <> [] -> bs_of k vars -> vars <> [] ->
  (forall e v, in_boxes e eqs -> maps_to f e v -> in_boxes v vars) ->
  exists L, gen_of m eqs vars f = Ok L /\ generated n k eqs vars f L.
Proof.
  intros n k eqs vars f G Hn E Ne V Nv Cl. pose proof (af_wf_good n k f G) as W. pose proof G as ((_ & _ & P) & G').
  destruct f as [|n' rs|n' rs|n' rs|n' rs]; try contradiction; cbn in W; destruct W as (-> & _).
  - now apply constant_generated.
  - now apply roto_generated.
  - now apply default_generated.
Qed.

(** The iteration over the options of one function gives those of its generator. *)
Lemma vaf_one : forall eqs vars f L, gen_of m eqs vars f = Ok L -> amount eqs f = Ok (length L) ->
  vaf_solutions m 1 [f] eqs vars = Ok L.
Proof.
  intros eqs vars f L G A. unfold vaf_solutions. cbn [map_res]. rewrite A. cbn [bind list_sum fold_right]. rewrite Nat.add_0_r.
  assert (X : forall R Q st, (st = mkVaf Q 2 (Some R) \/ (Q = [] /\ R = L /\ st = mkVaf [] 0 None)) ->
    vaf_iterate m 1 [f] eqs vars st (seq (length Q) (length R)) = Ok R).
  { induction R as [|T R IH]; intros Q st H; cbn [length seq vaf_iterate]; [reflexivity|].
    assert (I : vaf_index m 1 [f] eqs vars st (length Q) = Ok (mkVaf (Q ++ [T]) 2 (Some R), T)).
    { assert (F : vaf_fetch m [f] eqs vars st = Ok (mkVaf (Q ++ [T]) 2 (Some R))).
      { destruct H as [->|(-> & E & ->)]; unfold vaf_fetch; cbn; [reflexivity|]. rewrite G. cbn. rewrite <- E. reflexivity. }
      assert (N : nth_error (vmatrices st) (length Q) = None).
      { apply nth_error_None. destruct H as [->|(-> & _ & ->)]; cbn; lia. }
      cbn [vaf_index]. rewrite N, F. cbn [bind vaf_index vmatrices]. rewrite nth_error_app2, Nat.sub_diag by lia. reflexivity. }
    rewrite I. cbn [bind fst snd]. specialize (IH (Q ++ [T]) (mkVaf (Q ++ [T]) 2 (Some R))). rewrite app_length in IH. cbn [length] in IH.
    rewrite Nat.add_1_r in IH. rewrite IH; auto. }
  apply (X L [] (mkVaf [] 0 None)). auto.
Qed.

Lemma split_group_spec : forall n k M g, mx n k M -> In g (mgroups M) -> one_use (gfun g) ->
  exists L, split_group m M g = Ok L /\
    (forall T, In T L -> mx n k T /\ meqs T = meqs M /\ mvars T = mvars M /\
      (forall h, In h (mgroups T) -> gfun h = gfun g) /\ one_to_one (fun e v => length e = n /\ stored T e v) /\
      forall e v, length e = n -> stored T e v -> holds g e v) /\
    (forall e v, holds g e v -> exists T, In T L /\ stored T e v).
Proof.
  intros n k M g X Hg O. pose proof (x_ok _ _ _ X g Hg) as OK. pose proof OK as (G & C & K). pose proof (x_n _ _ _ X) as Hn. unfold split_group.
  rewrite (proj2 (bs_contains_spec (meqs M) (gkeys g))).
  2:{ intros e He. destruct (holds_total n k g e OK He) as (v & _ & Hv). apply (x_in _ _ _ X g e v Hg Hv). }
  cbn [assert_ok bind]. destruct (values_spec n k g OK Hn) as (t & -> & _ & Bt & V1 & V2). cbn [bind].
  rewrite (proj2 (bs_contains_spec (mvars M) t)).
  2:{ intros v Hv. destruct (V2 O v Hv) as (e & He). apply (x_in _ _ _ X g e v Hg He). }
  cbn [assert_ok bind].
  destruct (generated_all n k (gkeys g) t (gfun g) G Hn K) as (L & EL & [A S1 S2]); auto.
  { apply (x_ne _ _ _ X g Hg). }
  { intros ->. destruct (bs_nonempty n (gkeys g) K (x_ne _ _ _ X g Hg)) as (e & He). destruct (holds_total n k g e OK He) as (v & _ & Hv).
    destruct (V1 e v Hv) as (b & [] & _). }
  { intros e v He Hm. apply (V1 e v). split; assumption. }
  rewrite (vaf_one _ _ _ L EL A). cbn [bind]. clear A EL.
  assert (Y : forall T, In T L -> (_ <- assert_ok (bs_eq (meqs T) (gkeys g)) ;; _ <- assert_ok (bs_eq (mvars T) t) ;;
     Ok (mkMcim (meqs M) (mvars M) (mgroups T) (mpoints T))) = Ok (mkMcim (meqs M) (mvars M) (mgroups T) (mpoints T))).
  { intros T HT. destruct (S1 T HT) as (_ & -> & -> & _). rewrite !(proj2 (bs_eq_spec _ _)) by (intros; reflexivity). reflexivity. }
  destruct (map_res_exists _ _ (fun T => _ <- assert_ok (bs_eq (meqs T) (gkeys g)) ;; _ <- assert_ok (bs_eq (mvars T) t) ;;
     Ok (mkMcim (meqs M) (mvars M) (mgroups T) (mpoints T))) L) as (L' & EL' & _).
  { intros T HT. rewrite (Y T HT). eauto. }
  exists L'. split; [assumption|]. split.
  - intros T' HT'. destruct (map_res_in _ _ _ _ _ T' EL' HT') as (T & HT & ET). rewrite (Y T HT) in ET. injection ET as <-.
    destruct (S1 T HT) as (XT & QT & WT & FT & OT & ST).
    assert (SE : forall e v, length e = n -> stored T e v -> holds g e v) by (intros e v Le He; apply ST; assumption).
    split; [|split; [reflexivity|split; [reflexivity|split; [assumption|split; [exact OT|exact SE]]]]].
    destruct XT as [x1 x2 x3 x4 x5 x6 x7 x8 x9]. constructor; cbn; auto; try apply X.
    + intros h e v Hh Hhe. apply (x_in _ _ _ X g e v Hg). apply SE; [|right; exists h; auto].
      destruct (x5 h Hh) as (_ & _ & Kh). apply (bs_of_length n _ e Kh). apply Hhe.
    + intros e v Le He. apply (x_in _ _ _ X g e v Hg). apply SE; [assumption|]. now left.
  - intros e v (He & Hm). destruct (S2 e v He Hm) as (T & HT & HS). destruct (map_res_in2 _ _ _ _ _ T EL' HT) as (T' & HT' & ET).
    rewrite (Y T HT) in ET. injection ET as <-. eexists. split; [exact HT'|exact HS].
Qed.

Lemma split_point_spec : forall n k M e v, mx n k M -> length e = n -> in_boxes (e ++ v) (mpoints M) ->
  exists T, split_point m M (e ++ v) = Ok T /\ mx n k T /\ meqs T = meqs M /\ mvars T = mvars M /\ mgroups T = [] /\
    one_to_one (fun e v => length e = n /\ stored T e v) /\ forall e' v', length e' = n -> (stored T e' v' <-> e' = e /\ v' = v).
Proof.
  intros n k M e v X Le H. destruct (x_pin _ _ _ X e v Le H) as (He & Hv). unfold split_point.
  rewrite (bs_rank_of n (meqs M)), (bs_rank_of k (mvars M)) by first [apply (x_eqs _ _ _ X)|apply (x_vars _ _ _ X)].
  pose proof (bs_of_length k (mvars M) v (proj1 (x_vars _ _ _ X)) Hv) as Lv.
  rewrite firstn_app, firstn_all2, Le, Nat.sub_diag by lia. cbn [firstn]. rewrite app_nil_r.
  rewrite skipn_app, app_length, skipn_all2 by lia. replace (length e + length v - k - length e)%nat with 0%nat by lia. cbn [skipn app].
  destruct (x_eqs _ _ _ X) as (E & Ne), (x_vars _ _ _ X) as (V & Nv).
  destruct (single_set n k (meqs M) (mvars M) AFEmpty e v (x_n _ _ _ X) (x_k _ _ _ X) E Ne V Nv He Hv) as (T & ET & XT & QT & WT & FT & OT & ST).
  apply bind_ok in ET as (T0 & ET & C). assert (T0 = T).
  { unfold lm_checked in C. apply bind_ok in C as (b & _ & C). apply bind_ok in C as (u & _ & C). congruence. }
  subst T0. exists T. split; [assumption|]. repeat (split; [assumption|]). split; [|split; assumption].
  destruct (mgroups T) as [|h hs] eqn:EG; [reflexivity|]. exfalso.
  pose proof (x_ok _ _ _ XT h) as OKh. rewrite EG in OKh. specialize (OKh (or_introl eq_refl)).
  destruct OKh as (Gh & _). rewrite (FT h (or_introl eq_refl)) in Gh. destruct Gh as ((_ & _ & []) & _).
Qed.

Lemma any_entry_spec : forall n k Ss e v, (forall T, In T Ss -> mx n k T /\ cell T e v) ->
  exists b, any_entry Ss e v = Ok b /\ (b = true <-> exists T, In T Ss /\ stored T e v).
Proof.
  intros n k Ss e v. induction Ss as [|T Ss IH]; intros H; cbn [any_entry].
  - exists false. split; [reflexivity|]. split; [discriminate|]. intros (T & [] & _).
  - destruct (H T (or_introl eq_refl)) as (X & C). destruct (get_spec n k T e v X C) as (b & -> & Hb). cbn [bind]. destruct b.
    + exists true. split; [reflexivity|]. split; [|reflexivity]. intros _. exists T. split; [now left|]. now apply Hb.
    + destruct IH as (b & E & Hb'); [intros; apply H; now right|]. exists b. split; [assumption|]. rewrite Hb'. split.
      * intros (T' & HT' & S'). exists T'. split; [now right|assumption].
      * intros (T' & [<-|HT'] & S'); [apply Hb in S'; discriminate|]. eauto.
Qed.

Lemma solve_spec : forall n k M, mx n k M -> (forall g, In g (mgroups M) -> one_use (gfun g)) ->
  exists L, lm_solve m M = Ok L /\
    (forall T, In T L -> mx n k T /\ meqs T = meqs M /\ mvars T = mvars M /\
      (forall h, In h (mgroups T) -> exists g, In g (mgroups M) /\ gfun h = gfun g) /\
      one_to_one (fun e v => length e = n /\ stored T e v) /\ forall e v, length e = n -> stored T e v -> stored M e v) /\
    (forall e v, length e = n -> stored M e v -> exists T, In T L /\ stored T e v).
Proof.
  intros n k M X O. unfold lm_solve, mc_splitGroups.
  destruct (map_res_exists _ _ (split_group m M) (mgroups M)) as (Lg & ELg & _).
  { intros g Hg. destruct (split_group_spec n k M g X Hg (O g Hg)) as (L & E & _). eauto. }
  assert (SP : forall p, In p (bs_elements (mpoints M)) -> exists e v, p = e ++ v /\ length e = n).
  { intros p Hp. apply in_elements in Hp. pose proof (bs_of_length _ _ p (x_points _ _ _ X) Hp) as L.
    exists (firstn n p), (skipn n p). split; [now rewrite firstn_skipn|]. rewrite firstn_length. lia. }
  destruct (map_res_exists _ _ (split_point m M) (bs_elements (mpoints M))) as (Lp & ELp & _).
  { intros p Hp. destruct (SP p Hp) as (e & v & -> & Le). apply in_elements in Hp. destruct (split_point_spec n k M e v X Le Hp) as (T & E & _). eauto. }
  rewrite ELg. cbn [bind]. rewrite ELp. cbn [bind].
  assert (S1 : forall T, In T (concat Lg ++ Lp) -> mx n k T /\ meqs T = meqs M /\ mvars T = mvars M /\
      (forall h, In h (mgroups T) -> exists g, In g (mgroups M) /\ gfun h = gfun g) /\
      one_to_one (fun e v => length e = n /\ stored T e v) /\ forall e v, length e = n -> stored T e v -> stored M e v).
  { intros T HT. apply in_app_iff in HT as [HT|HT].
    - apply in_concat in HT as (l & Hl & HT). destruct (map_res_in _ _ _ _ _ l ELg Hl) as (g & Hg & Eg).
      destruct (split_group_spec n k M g X Hg (O g Hg)) as (L & E & S1 & _). rewrite E in Eg. injection Eg as <-.
      destruct (S1 T HT) as (XT & Q & W & F & U & St). repeat (split; [assumption|]). split; [eauto|]. split; [assumption|].
      intros e v Le H. right. exists g. auto.
    - destruct (map_res_in _ _ _ _ _ T ELp HT) as (p & Hp & Ep). destruct (SP p Hp) as (e & v & -> & Le). apply in_elements in Hp.
      destruct (split_point_spec n k M e v X Le Hp) as (T' & E & XT & Q & W & F & U & St). rewrite E in Ep. injection Ep as <-.
      repeat (split; [assumption|]). split; [rewrite F; cbn; contradiction|]. split; [assumption|].
      intros e' v' Le' H. apply St in H as (-> & ->); [|assumption]. now left. }
  assert (S2 : forall e v, length e = n -> stored M e v -> exists T, In T (concat Lg ++ Lp) /\ stored T e v).
  { intros e v Le [H|(g & Hg & Hh)].
    - destruct (map_res_in2 _ _ _ _ _ (e ++ v) ELp) as (T & HT & ET); [now apply in_elements|].
      destruct (split_point_spec n k M e v X Le H) as (T' & E & _ & _ & _ & _ & _ & St). rewrite E in ET. injection ET as <-.
      exists T'. split; [apply in_or_app; now right|]. now apply St.
    - destruct (map_res_in2 _ _ _ _ _ g ELg Hg) as (l & Hl & El). destruct (split_group_spec n k M g X Hg (O g Hg)) as (L & E & _ & S2).
      rewrite E in El. injection El as <-. destruct (S2 e v Hh) as (T & HT & St). exists T. split; [|assumption].
      apply in_or_app. left. apply in_concat. eauto. }
  clear ELg ELp SP. set (L := concat Lg ++ Lp) in *. clearbody L. exists L.
  assert (CL : map_res lm_checked L = Ok L).
  { clear S2. induction L as [|T L IH]; cbn [map_res]; [reflexivity|].
    destruct (S1 T (or_introl eq_refl)) as (XT & _ & _ & _ & U & _). rewrite (valid_spec n k T XT U). cbn [bind].
    rewrite IH; [reflexivity|]. intros; apply S1; now right. }
  rewrite CL. cbn [bind].
  assert (CV : lm_covered M L (mc_indices M) = Ok true).
  { assert (I : forall e v, In (e, v) (mc_indices M) -> cell M e v) by (intros e v H; now apply in_indices).
    revert I. generalize (mc_indices M) as l. induction l as [|[e v] l IH]; intros I; cbn [lm_covered]; [reflexivity|].
    assert (C : cell M e v) by (apply I; now left). destruct (get_spec n k M e v X C) as (b & -> & Hb). cbn [bind].
    destruct (cell_length n k M e v X C) as (Le & _). destruct b.
    - destruct (any_entry_spec n k L e v) as (c & -> & Hc).
      { intros T HT. destruct (S1 T HT) as (XT & Q & W & _). split; [assumption|]. unfold cell. now rewrite Q, W. }
      cbn [bind]. assert (c = true) as ->; [|apply IH; intros; apply I; now right]. apply Hc. apply S2; [assumption|]. now apply Hb.
    - cbn [bind]. apply IH; intros; apply I; now right. }
  rewrite CV. cbn. auto.
Qed.
End M.
