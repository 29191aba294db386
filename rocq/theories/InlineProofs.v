(** * Proofs about the inlining of functions *)
From Coq Require Import ZArith List Bool Arith Lia.
From Verif Require Import Result AccessModel InlineModel InlineSpec.
Import ListNotations.
Local Open Scope nat_scope.

Lemma obind_some {A B} (m : option A) (f : A -> option B) b : obind m f = Some b -> exists a, m = Some a /\ f a = Some b.
Proof. destruct m; cbn; [eauto|discriminate]. Qed.

Lemma mapo_some {A B} (f : A -> option B) l r : mapo f l = Some r <-> Forall2 (fun a b => f a = Some b) l r.
Proof.
  revert r. induction l as [|a l IH]; intros r; cbn.
  - split; [intros H; injection H as <-; constructor|intros H; now inversion H].
  - split.
    + intros H. apply obind_some in H as (b & E & H). apply obind_some in H as (r' & E' & H). injection H as <-. constructor; [exact E|]. now apply IH.
    + intros H. inversion H; subst. match goal with K : f a = _ |- _ => rewrite K end. cbn.
      match goal with K : Forall2 _ l _ |- _ => apply IH in K; rewrite K end. reflexivity.
Qed.

Lemma expr_ind' (Q : expr -> Prop) :
  (forall v, Q (XConst v)) -> (forall x, Q (XVar x)) -> (forall k, Q (XIter k)) ->
  (forall o l, Forall Q l -> Q (XOp o l)) -> (forall o l b, Forall Q l -> Q b -> Q (XReg o l b)) ->
  (forall f k l, Forall Q l -> Q (XCall f k l)) -> forall e, Q e.
Proof.
  intros H1 H2 H3 H4 H5 H6. fix IH 1. intros [v|x|k|o l|o l b|f k l].
  - apply H1.
  - apply H2.
  - apply H3.
  - apply H4. induction l as [|a l IHl]; constructor; [apply IH|exact IHl].
  - apply H5; [|apply IH]. induction l as [|a l IHl]; constructor; [apply IH|exact IHl].
  - apply H6. induction l as [|a l IHl]; constructor; [apply IH|exact IHl].
Qed.

Lemma stmt_ind' (Q : stmt -> Prop) :
  (forall x subs e, Q (SSet x subs e)) -> (forall c b, Forall Q b -> Q (SIf c b)) -> Q SReturn -> forall s, Q s.
Proof.
  intros H1 H2 H3. fix IH 1. intros [x subs e|c b|].
  - apply H1.
  - apply H2. induction b as [|a b IHb]; constructor; [apply IH|exact IHb].
  - exact H3.
Qed.

Lemma all_forall (Q : expr -> Prop) l :
  (fix all (l : list expr) := match l with [] => True | a :: l' => Q a /\ all l' end) l <-> Forall Q l.
Proof.
  induction l as [|a l IH]; [now split; constructor|]. split.
  - intros (H & K). constructor; [exact H|]. now apply IH.
  - intros H. inversion H; subst. split; [assumption|]. now apply IH.
Qed.

Lemma remap_list vm l :
  (fix go (l : list expr) : res (list expr) := match l with [] => Ok [] | a :: l' => a' <- remap vm a ;; r <- go l' ;; Ok (a' :: r) end) l =
  map_res (remap vm) l.
Proof. induction l as [|a l IH]; [reflexivity|]. cbn. destruct (remap vm a); cbn; [|reflexivity|reflexivity]. now rewrite IH. Qed.

Lemma map_res_forall2 {A B} (f : A -> res B) l r : map_res f l = Ok r <-> Forall2 (fun a b => f a = Ok b) l r.
Proof.
  revert r. induction l as [|a l IH]; intros r; cbn.
  - split; [intros H; injection H as <-; constructor|intros H; now inversion H].
  - split.
    + intros H. apply bind_ok in H as (b & E & H). apply bind_ok in H as (r' & E' & H). injection H as <-. constructor; [exact E|]. now apply IH.
    + intros H. inversion H; subst. match goal with K : f a = _ |- _ => rewrite K end. cbn.
      match goal with K : Forall2 _ l _ |- _ => apply IH in K; rewrite K end. reflexivity.
Qed.

Lemma vget_vset vm x e y : vget (vset vm x e) y = if Nat.eqb y x then Some e else vget vm y.
Proof. unfold vget, vset. cbn. rewrite (Nat.eqb_sym x y). now destruct (Nat.eqb y x). Qed.

Section Meaning.
Variable op_val : nat -> list val -> option val.
Variable reg_dom : nat -> list val -> option (list val).
Variable reg_fold : nat -> list val -> list val -> option val.
Notation ev := (eval op_val reg_dom reg_fold).
Notation hv := (has_val op_val reg_dom reg_fold).

(** ** More steps do not change a value *)

Definition below (f g : env -> expr -> option val) : Prop := forall r e v, f r e = Some v -> g r e = Some v.

Lemma bind_inputs_mono f g : below f g -> forall ins r args q, bind_inputs f r ins args = Some q -> bind_inputs g r ins args = Some q.
Proof.
  intros B. induction ins as [|(x & d) ins IH]; intros r args q H; destruct args as [|a args]; cbn in *; try exact H.
  - destruct d as [d|]; [|discriminate]. apply obind_some in H as (v & E & H). rewrite (B _ _ _ E). cbn. now apply IH.
  - destruct d; now apply IH.
Qed.

Lemma init_vars_mono f g : below f g -> forall vs r q, init_vars f r vs = Some q -> init_vars g r vs = Some q.
Proof.
  intros B. induction vs as [|(x & [d|]) vs IH]; intros r q H; cbn in *; [exact H| |now apply IH].
  apply obind_some in H as (v & E & H). rewrite (B _ _ _ E). cbn. now apply IH.
Qed.

Lemma mapo_mono {A B} (f g : A -> option B) l r : (forall a b, f a = Some b -> g a = Some b) -> mapo f l = Some r -> mapo g l = Some r.
Proof. intros H. rewrite !mapo_some. induction 1; constructor; auto. Qed.

Lemma exec_mono f g : below f g -> forall s r q, exec f s r = Some q -> exec g s r = Some q.
Proof.
  intros B s. induction s as [x subs e|c b IH|] using stmt_ind'; intros r q H; cbn in *; [| |exact H].
  - apply obind_some in H as (is & E & H). apply obind_some in H as (v & E' & H).
    rewrite (mapo_mono _ (g r) _ _ (B r) E), (B _ _ _ E'). exact H.
  - apply obind_some in H as (v & E & H). rewrite (B _ _ _ E). cbn. destruct (is_true v); [|exact H].
    revert r E q H. induction IH as [|s b Hs Hb IHb]; intros r E q H; [exact H|].
    apply obind_some in H as (p & E2 & H). rewrite (Hs _ _ E2). cbn. destruct (snd p); [exact H|].
    clear E. revert H. generalize (fst p). clear - Hb Hs IHb B. intros r H.
    revert r q H. clear IHb. induction Hb as [|s' b' Hs' Hb' IHb]; intros r q H; [exact H|].
    apply obind_some in H as (p' & E2 & H). rewrite (Hs' _ _ E2). cbn. destruct (snd p'); [exact H|]. now apply IHb.
Qed.

Lemma run_mono f g : below f g -> forall b r q, run f b r = Some q -> run g b r = Some q.
Proof.
  intros B. induction b as [|s b IH]; intros r q H; [exact H|]. cbn in *.
  apply obind_some in H as (p & E & H). rewrite (exec_mono f g B _ _ _ E). cbn. destruct (snd p); [exact H|]. now apply IH.
Qed.

Lemma call_mono f g : below f g -> forall fn k args v, call f fn k args = Some v -> call g fn k args = Some v.
Proof.
  intros B fn k args v H. unfold call in *.
  apply obind_some in H as (r1 & E1 & H). apply obind_some in H as (r2 & E2 & H). apply obind_some in H as (q & E3 & H).
  rewrite (bind_inputs_mono f g B _ _ _ _ E1). cbn. rewrite (init_vars_mono f g B _ _ _ E2). cbn.
  rewrite (run_mono f g B _ _ _ E3). exact H.
Qed.

Lemma eval_mono n : forall m P r its e v, n <= m -> ev n P r its e = Some v -> ev m P r its e = Some v.
Proof.
  induction n as [|n IH]; intros m P r its e v L H; [discriminate|]. destruct m as [|m]; [lia|].
  assert (L' : n <= m) by lia.
  assert (M : forall r its l vs, mapo (ev n P r its) l = Some vs -> mapo (ev m P r its) l = Some vs).
  { intros r0 its0 l vs. apply mapo_mono. intros a b. now apply IH. }
  destruct e as [w|x|k|o l|o l b|f k l]; cbn in *; try exact H.
  - apply obind_some in H as (vs & E & H). rewrite (M _ _ _ _ E). exact H.
  - apply obind_some in H as (vs & E & H). apply obind_some in H as (is & E2 & H). apply obind_some in H as (ws & E3 & H).
    rewrite (M _ _ _ _ E). cbn. rewrite E2. cbn.
    rewrite (mapo_mono _ (fun i => ev m P r (i :: its) b) _ _ (fun a c => IH m P r (a :: its) b c L') E3). exact H.
  - apply obind_some in H as (vs & E & H). apply obind_some in H as (fn & E2 & H). rewrite (M _ _ _ _ E). cbn. rewrite E2. cbn.
    eapply call_mono; [|exact H]. intros r' e' v'. now apply IH.
Qed.

Lemma eval_det n m P r its e v w : ev n P r its e = Some v -> ev m P r its e = Some w -> v = w.
Proof.
  intros H K. apply (eval_mono n (max n m)) in H; [|lia]. apply (eval_mono m (max n m)) in K; [|lia]. congruence.
Qed.

(** ** Values put together *)

Lemma common_fuel P r its l vs : Forall2 (hv P r its) l vs -> exists m, Forall2 (fun e v => ev m P r its e = Some v) l vs.
Proof.
  induction 1 as [|e v l vs (n & H) _ (m & K)]; [exists 0; constructor|]. exists (max n m). constructor.
  - eapply eval_mono; [|exact H]. lia.
  - clear - K. induction K; constructor; auto. eapply eval_mono; [|eassumption]. lia.
Qed.

Lemma common_region P r its b is ws : Forall2 (fun i w => hv P r (i :: its) b w) is ws ->
  exists m, Forall2 (fun i w => ev m P r (i :: its) b = Some w) is ws.
Proof.
  induction 1 as [|e v l vs (n & H) _ (m & K)]; [exists 0; constructor|]. exists (max n m). constructor.
  - eapply eval_mono; [|exact H]. lia.
  - clear - K. induction K; constructor; auto. eapply eval_mono; [|eassumption]. lia.
Qed.

Lemma hv_op P r its o l vs v : Forall2 (hv P r its) l vs -> op_val o vs = Some v -> hv P r its (XOp o l) v.
Proof. intros H K. apply common_fuel in H as (m & H). exists (S m). cbn. apply mapo_some in H. rewrite H. exact K. Qed.

Lemma hv_reg P r its o l vs b is ws v : Forall2 (hv P r its) l vs -> reg_dom o vs = Some is ->
  Forall2 (fun i w => hv P r (i :: its) b w) is ws -> reg_fold o vs ws = Some v -> hv P r its (XReg o l b) v.
Proof.
  intros H D W K. apply common_fuel in H as (m & H). apply common_region in W as (n & W). exists (S (max m n)). cbn.
  assert (H' : mapo (ev (max m n) P r its) l = Some vs).
  { apply mapo_some. clear - H. induction H; constructor; auto. eapply eval_mono; [|eassumption]. lia. }
  assert (W' : mapo (fun i => ev (max m n) P r (i :: its) b) is = Some ws).
  { apply mapo_some. clear - W. induction W; constructor; auto. eapply eval_mono; [|eassumption]. lia. }
  rewrite H'. cbn. rewrite D. cbn. rewrite W'. exact K.
Qed.

Lemma hv_call P r its f k l vs fn m v : Forall2 (hv P r its) l vs -> P f = Some fn ->
  call (fun r e => ev m P r [] e) fn k vs = Some v -> hv P r its (XCall f k l) v.
Proof.
  intros H F K. apply common_fuel in H as (n & H). exists (S (max n m)). cbn.
  assert (H' : mapo (ev (max n m) P r its) l = Some vs).
  { apply mapo_some. clear - H. induction H; constructor; auto. eapply eval_mono; [|eassumption]. lia. }
  rewrite H'. cbn. rewrite F. cbn. eapply call_mono; [|exact K]. intros r' e' v' E. eapply eval_mono; [|exact E]. lia.
Qed.

Lemma mapo_hv n P r its l vs : mapo (ev n P r its) l = Some vs -> Forall2 (hv P r its) l vs.
Proof. intros H. apply mapo_some in H. induction H; constructor; auto. now exists n. Qed.

(** ** Expressions that read no variables *)

Lemma no_reads_eval n : forall P r r' its its' e v, no_reads e -> ev n P r its e = Some v -> ev n P r' (its ++ its') e = Some v.
Proof.
  induction n as [|n IH]; intros P r r' its its' e v N H; [discriminate|].
  assert (M : forall l vs, Forall no_reads l -> mapo (ev n P r its) l = Some vs -> mapo (ev n P r' (its ++ its')) l = Some vs).
  { intros l vs F K. apply mapo_some. apply mapo_some in K. revert F. induction K; intros F; constructor; inversion F; subst; eauto. }
  destruct e as [w|x|k|o l|o l b|f k l]; cbn in *; try exact H.
  - destruct N.
  - rewrite nth_error_app1; [exact H|]. apply nth_error_Some. congruence.
  - apply obind_some in H as (vs & E & H). apply all_forall in N. rewrite (M _ _ N E). exact H.
  - destruct N as (N & NB). apply all_forall in N. apply obind_some in H as (vs & E & H). apply obind_some in H as (is & E2 & H). apply obind_some in H as (ws & E3 & H).
    rewrite (M _ _ N E). cbn. rewrite E2. cbn.
    rewrite (mapo_mono _ (fun i => ev n P r' (i :: its ++ its') b) _ _ (fun a c => IH P r r' (a :: its) its' b c NB) E3). exact H.
  - apply obind_some in H as (vs & E & H). apply obind_some in H as (fn & E2 & H). apply all_forall in N. rewrite (M _ _ N E). cbn. rewrite E2. exact H.
Qed.

(** ** Replacing reads *)

(** What the mapping has to do with the environment of the function. *)
Definition mapped (P : prog) (r : env) (its : list val) (vm : vmap) (c : env) : Prop :=
  forall x w, c x = Some w -> exists e, vget vm x = Some e /\ hv P r its e w.

Lemma remap_value P r its vm c : mapped P r its vm c ->
  forall e n v, plain e -> ev n P c [] e = Some v -> exists e', remap vm e = Ok e' /\ hv P r its e' v.
Proof.
  intros M e. induction e as [w|x|k|o l IH|o l b IH IHb|f k l IH] using expr_ind'; intros n v Pl H; (destruct n as [|n]; [discriminate|]); cbn [eval] in H.
  - injection H as <-. eexists. split; [reflexivity|]. exists 1. reflexivity.
  - destruct (M x v H) as (e & G & V). exists e. cbn. rewrite G. split; [reflexivity|exact V].
  - destruct k; discriminate.
  - apply obind_some in H as (vs & E & H). cbn in Pl. apply all_forall in Pl. apply mapo_some in E.
    assert (L : exists l', map_res (remap vm) l = Ok l' /\ Forall2 (hv P r its) l' vs).
    { clear H. revert IH Pl. induction E as [|a b l vs Ha E IHE]; intros IH Pl; [exists []; split; [reflexivity|constructor]|].
      inversion IH; inversion Pl; subst. destruct IHE as (l' & L & V); auto.
      match goal with K : forall n v, plain a -> _ |- _ => destruct (K n b) as (a' & A & VA); auto end.
      exists (a' :: l'). cbn. rewrite A. cbn. rewrite L. split; [reflexivity|]. constructor; auto. }
    destruct L as (l' & L & V). exists (XOp o l'). cbn. rewrite remap_list, L. split; [reflexivity|]. eapply hv_op; eauto.
  - apply obind_some in H as (vs & E & H). apply obind_some in H as (is & E2 & H). apply obind_some in H as (ws & E3 & H).
    cbn in Pl. destruct Pl as (Pl & NB). apply all_forall in Pl. apply mapo_some in E.
    assert (L : exists l', map_res (remap vm) l = Ok l' /\ Forall2 (hv P r its) l' vs).
    { clear H E2. revert IH Pl. induction E as [|a b' l vs Ha E IHE]; intros IH Pl; [exists []; split; [reflexivity|constructor]|].
      inversion IH; inversion Pl; subst. destruct IHE as (l' & L & V); auto.
      match goal with K : forall n v, plain a -> _ |- _ => destruct (K n b') as (a' & A & VA); auto end.
      exists (a' :: l'). cbn. rewrite A. cbn. rewrite L. split; [reflexivity|]. constructor; auto. }
    destruct L as (l' & L & V). exists (XReg o l' b). cbn. rewrite remap_list, L. split; [reflexivity|]. eapply hv_reg; eauto.
    apply mapo_some in E3. clear - E3 NB. induction E3 as [|i w is ws Hi _ IH3]; constructor; auto.
    exists n. apply (no_reads_eval n P c r [i] its b w NB Hi).
  - apply obind_some in H as (vs & E & H). apply obind_some in H as (fn & E2 & H). cbn in Pl. apply all_forall in Pl. apply mapo_some in E.
    assert (L : exists l', map_res (remap vm) l = Ok l' /\ Forall2 (hv P r its) l' vs).
    { clear H. revert IH Pl. induction E as [|a b l vs Ha E IHE]; intros IH Pl; [exists []; split; [reflexivity|constructor]|].
      inversion IH; inversion Pl; subst. destruct IHE as (l' & L & V); auto.
      match goal with K : forall n v, plain a -> _ |- _ => destruct (K n b) as (a' & A & VA); auto end.
      exists (a' :: l'). cbn. rewrite A. cbn. rewrite L. split; [reflexivity|]. constructor; auto. }
    destruct L as (l' & L & V). exists (XCall f k l'). cbn. rewrite remap_list, L. split; [reflexivity|]. eapply hv_call; eauto.
Qed.

Lemma mapped_upd P r its vm c x e w : mapped P r its vm c -> hv P r its e w -> mapped P r its (vset vm x e) (upd c x w).
Proof.
  intros M V y u H. rewrite vget_vset. unfold upd in H. destruct (Nat.eqb y x); [|now apply M].
  injection H as <-. eauto.
Qed.

(** ** Inputs *)

Lemma fold_defaults ins : forall vm x, vget (fold_left (fun vm p => match snd p with Some d => vset vm (fst p) d | None => vm end) ins vm) x =
  match find (fun p => Nat.eqb (fst p) x && match snd p with Some _ => true | None => false end) (rev ins) with
  | Some p => snd p
  | None => vget vm x
  end.
Proof.
  induction ins as [|(y & d) ins IH]; intros vm x; [reflexivity|]. cbn [fold_left rev fst snd].
  rewrite IH. clear IH.
  assert (A : forall l1 l2, find (fun p : nat * option expr => Nat.eqb (fst p) x && match snd p with Some _ => true | None => false end) (l1 ++ l2) =
     match find (fun p => Nat.eqb (fst p) x && match snd p with Some _ => true | None => false end) l1 with Some p => Some p
     | None => find (fun p => Nat.eqb (fst p) x && match snd p with Some _ => true | None => false end) l2 end).
  { induction l1 as [|p l1 IH]; intros l2; [reflexivity|]. cbn. destruct (_ && _); [reflexivity|apply IH]. }
  rewrite A. destruct (find _ (rev ins)); [reflexivity|]. cbn. destruct d as [d|]; cbn.
  - rewrite vget_vset, (Nat.eqb_sym x y), andb_true_r. destruct (Nat.eqb y x); reflexivity.
  - rewrite andb_false_r. reflexivity.
Qed.

Lemma default_get ins : NoDup (map fst ins) -> forall x d, In (x, Some d) ins ->
  vget (fold_left (fun vm p => match snd p with Some d => vset vm (fst p) d | None => vm end) ins []) x = Some d.
Proof.
  intros ND x d I. rewrite fold_defaults.
  destruct (find (fun p => Nat.eqb (fst p) x && match snd p with Some _ => true | None => false end) (rev ins)) as [p|] eqn:F.
  - apply find_some in F as (J & T). apply in_rev in J. apply andb_true_iff in T as (T & _). apply Nat.eqb_eq in T.
    destruct p as (y & o). cbn in *. subst y.
    clear - ND I J. induction ins as [|(y & q) ins IH]; [destruct I|]. inversion ND as [|? ? NI ND']; subst.
    destruct I as [I|I], J as [J|J].
    + congruence.
    + injection I as -> ->. exfalso. apply NI. apply (in_map fst) in J. exact J.
    + injection J as -> ->. exfalso. apply NI. apply (in_map fst) in I. exact I.
    + now apply IH.
  - exfalso. apply find_none with (x := (x, Some d)) in F; [|now apply in_rev; rewrite rev_involutive].
    cbn in F. rewrite Nat.eqb_refl in F. discriminate.
Qed.

Lemma mapped_inputs P r its n ins args vs vm :
  NoDup (map fst ins) -> Forall (fun p => match snd p with Some d => no_reads d | None => True end) ins ->
  (forall x d, In (x, Some d) ins -> vget vm x = Some d) ->
  Forall2 (hv P r its) args vs ->
  forall c c', mapped P r its vm c -> (forall x, In x (map fst ins) -> c x = None) ->
  (forall c d w, no_reads d -> ev n P c [] d = Some w -> True) ->
  bind_inputs (fun r e => ev n P r [] e) c ins vs = Some c' ->
  exists vm', map_args vm ins args = Ok vm' /\ mapped P r its vm' c' /\
    (forall x, vget vm x <> None -> vget vm' x <> None) /\ forall x, In x (map fst ins) -> vget vm' x <> None.
Proof.
  intros ND. revert args vs vm. induction ins as [|(x & d) ins IH]; intros args vs vm NR DG AV c c' M Fr _ H.
  - destruct AV; cbn in H; [|discriminate]. injection H as <-. exists vm. cbn. repeat split; auto.
  - inversion ND as [|? ? NI ND']; subst. inversion NR as [|? ? N1 NR']; subst.
    destruct AV as [|a v args vs Va AV].
    + cbn in H. destruct d as [d|]; [|discriminate]. apply obind_some in H as (w & E & H).
      destruct (IH ND' [] [] vm NR') with (c := upd c x w) (c' := c') as (vm' & A & M' & K & J); auto.
      * intros y e I. apply DG. now right.
      * intros y u Hy. unfold upd in Hy. destruct (Nat.eqb_spec y x) as [->|Ne]; [|now apply M].
        injection Hy as <-. exists d. split; [apply DG; now left|]. exists n. apply (no_reads_eval n P c r [] its d w N1 E).
      * intros y I. unfold upd. destruct (Nat.eqb_spec y x) as [->|Ne]; [contradiction|]. apply Fr. now right.
      * exists vm'. cbn in A |- *. split; [destruct ins; exact A|]. split; [exact M'|]. split; [exact K|].
        intros y [<-|I]; [|now apply J]. apply K. rewrite (DG x d); [discriminate|now left].
    + cbn in H. assert (H' : bind_inputs (fun r e => ev n P r [] e) (upd c x v) ins vs = Some c') by (destruct d; exact H).
      destruct (IH ND' args vs (vset vm x a) NR') with (c := upd c x v) (c' := c') as (vm' & A & M' & K & J); auto.
      * intros y e I. rewrite vget_vset. destruct (Nat.eqb_spec y x) as [->|Ne]; [|apply DG; now right].
        exfalso. apply NI. apply (in_map fst) in I. exact I.
      * now apply mapped_upd.
      * intros y I. unfold upd. destruct (Nat.eqb_spec y x) as [->|Ne]; [contradiction|]. apply Fr. now right.
      * exists vm'. cbn. split; [exact A|]. split; [exact M'|]. split.
        -- intros y G. apply K. rewrite vget_vset. destruct (Nat.eqb y x); [discriminate|exact G].
        -- intros y [<-|I]; [|now apply J]. apply K. cbn. rewrite vget_vset, Nat.eqb_refl. discriminate.
Qed.

Lemma init_none n P vs : Forall (fun p : nat * option expr => snd p = None) vs -> forall r, init_vars (fun r e => ev n P r [] e) r vs = Some r.
Proof. induction 1 as [|(x & d) vs H _ IH]; intros r; [reflexivity|]. cbn in H. subst d. cbn. apply IH. Qed.

Lemma mapped_body P r its n b : Forall (fun s => match s with SSet _ [] e => plain e | _ => False end) b ->
  forall vm c q res, mapped P r its vm c -> run (fun r e => ev n P r [] e) b c = Some q ->
  exists vm', fold_res clone_stmt b (vm, res) = Ok (vm', res) /\ mapped P r its vm' (fst q).
Proof.
  induction 1 as [|s b Hs _ IH]; intros vm c q res M H; cbn in H.
  - injection H as <-. exists vm. split; [reflexivity|exact M].
  - destruct s as [x [|i subs] e|?|]; try contradiction. cbn in H.
    apply obind_some in H as (p & E & H). apply obind_some in E as (v & E & E'). injection E' as <-. cbn in H.
    destruct (remap_value P r its vm c M e n v Hs E) as (e' & R & V).
    destruct (IH (vset vm x e') (upd c x v) q res (mapped_upd _ _ _ _ _ _ _ _ M V) H) as (vm' & F & M').
    exists vm'. split; [|exact M']. cbn. rewrite R. cbn. exact F.
Qed.

(** ** One call *)

Lemma inline_value P r its fn k args vs n v :
  accepted fn -> Forall2 (hv P r its) args vs -> call (fun r e => ev n P r [] e) fn k vs = Some v ->
  exists e, inline_call fn k args = Ok (e, []) /\ hv P r its e v.
Proof.
  intros A V H. unfold call in H.
  apply obind_some in H as (c1 & E1 & H). apply obind_some in H as (c2 & E2 & H). apply obind_some in H as (q & E3 & H).
  apply obind_some in H as (o & E4 & H).
  rewrite (init_none n P _ (ac_others _ A)) in E2. injection E2 as <-.
  destruct (mapped_inputs P r its n (f_inputs fn) args vs (map_defaults fn) (ac_names _ A) (ac_inputs _ A)) with (c := no_env) (c' := c1) as (vm & F & M & _ & J); auto.
  { intros x d I. unfold map_defaults. now apply default_get; [apply (ac_names _ A)|]. }
  { intros x w K. discriminate. }
  destruct (mapped_body P r its n _ (ac_body _ A) vm c1 q [] M E3) as (vm' & G & M').
  destruct (M' _ _ H) as (e & Ge & Ve). exists e. split; [|exact Ve].
  unfold inline_call. rewrite F. cbn [bind].
  assert (T : forallb (fun p => match vget vm (fst p) with Some _ => true | None => false end) (f_inputs fn) = true).
  { apply forallb_forall. intros p I. specialize (J (fst p) (in_map fst _ _ I)). destruct (vget vm (fst p)); [reflexivity|congruence]. }
  rewrite T. cbn [assert_ok bind]. rewrite G. cbn [bind]. rewrite E4. cbn [of_option bind fst snd]. rewrite Ge. reflexivity.
Qed.

(** ** Any number of calls *)

Lemma inl_refl P e : inl P e e.
Proof.
  induction e as [w|x|k|o l IH|o l b IH IHb|f k l IH] using expr_ind'; constructor; auto; clear - IH; induction IH; constructor; auto.
Qed.

Lemma bind_inputs_inl n P Q :
  (forall r its e e' v, inl P e e' -> ev n P r its e = Some v -> hv Q r its e' v) ->
  forall ins ins', inl_vars P ins ins' -> forall r args q, bind_inputs (fun r e => ev n P r [] e) r ins args = Some q ->
  exists m, bind_inputs (fun r e => ev m Q r [] e) r ins' args = Some q.
Proof.
  intros IH ins ins' V. induction V as [|(x & d) (y & d') ins ins' (Exy & Hd) V IHV]; intros r args q H.
  - exists 0. exact H.
  - cbn in Exy, Hd. subst y. destruct args as [|a args].
    + cbn in H. inversion Hd as [|e e' He]; subst; [discriminate|]. apply obind_some in H as (v & E & H).
      destruct (IH _ _ _ _ _ He E) as (m & Em). destruct (IHV _ _ _ H) as (m' & Em').
      exists (max m m'). cbn. rewrite (eval_mono m (max m m') Q r [] e' v ltac:(lia) Em). cbn.
      eapply bind_inputs_mono; [|exact Em']. intros r' e0 v'. apply eval_mono. lia.
    + cbn in H. assert (H' : bind_inputs (fun r e => ev n P r [] e) (upd r x a) ins args = Some q) by (destruct d; exact H).
      destruct (IHV _ _ _ H') as (m & Em). exists m. cbn. destruct d'; exact Em.
Qed.

Lemma init_vars_inl n P Q :
  (forall r its e e' v, inl P e e' -> ev n P r its e = Some v -> hv Q r its e' v) ->
  forall vs vs', inl_vars P vs vs' -> forall r q, init_vars (fun r e => ev n P r [] e) r vs = Some q ->
  exists m, init_vars (fun r e => ev m Q r [] e) r vs' = Some q.
Proof.
  intros IH vs vs' V. induction V as [|(x & d) (y & d') vs vs' (Exy & Hd) V IHV]; intros r q H.
  - exists 0. exact H.
  - cbn in Exy, Hd. subst y. inversion Hd as [|e e' He]; subst; cbn in H; [destruct (IHV _ _ H) as (m & Em); now exists m|].
    apply obind_some in H as (v & E & H).
    destruct (IH _ _ _ _ _ He E) as (m & Em). destruct (IHV _ _ H) as (m' & Em').
    exists (max m m'). cbn. rewrite (eval_mono m (max m m') Q r [] e' v ltac:(lia) Em). cbn.
    eapply init_vars_mono; [|exact Em']. intros r' e0 v'. apply eval_mono. lia.
Qed.

Lemma list_inl n P Q :
  (forall r its e e' v, inl P e e' -> ev n P r its e = Some v -> hv Q r its e' v) ->
  forall r its l l' vs, Forall2 (inl P) l l' -> mapo (ev n P r its) l = Some vs -> Forall2 (hv Q r its) l' vs.
Proof.
  intros IH r its l l' vs F H. apply mapo_some in H. revert vs H. induction F as [|a b l l' Hab F IHF]; intros vs H; inversion H; subst; constructor; eauto.
Qed.

Lemma run_fix f b r :
  (fix run (b : list stmt) (r : env) : option (env * bool) :=
     match b with [] => Some (r, false) | s :: b' => obind (exec f s r) (fun q => if snd q then Some q else run b' (fst q)) end) b r = run f b r.
Proof.
  revert r. induction b as [|s b IH]; intros r; [reflexivity|]. cbn. destruct (exec f s r) as [q|]; [|reflexivity]. cbn. destruct (snd q); [reflexivity|]. apply IH.
Qed.

Lemma exec_inl n P Q :
  (forall r its e e' v, inl P e e' -> ev n P r its e = Some v -> hv Q r its e' v) ->
  forall s s', inl_stmt P s s' -> forall r q, exec (fun r e => ev n P r [] e) s r = Some q ->
  exists m, exec (fun r e => ev m Q r [] e) s' r = Some q.
Proof.
  intros IH s. induction s as [x subs e|c b IHb|] using stmt_ind'; intros s' V r q H; inversion V; subst; cbn in H.
  - apply obind_some in H as (is & E & H). apply obind_some in H as (v & E' & H).
    match goal with K : Forall2 (inl P) subs _ |- _ => pose proof (list_inl n P Q IH r [] _ _ _ K E) as L end.
    match goal with K : inl P e _ |- _ => destruct (IH _ _ _ _ _ K E') as (m & Em) end.
    apply common_fuel in L as (m' & L). exists (max m m'). cbn.
    assert (L' : mapo (fun e0 => ev (max m m') Q r [] e0) subs' = Some is).
    { apply mapo_some. clear - L. induction L; constructor; auto. eapply eval_mono; [|eassumption]. lia. }
    rewrite L'. cbn. rewrite (eval_mono m (max m m') Q r [] e' v ltac:(lia) Em). exact H.
  - apply obind_some in H as (v & E & H). match goal with K : inl P c _ |- _ => destruct (IH _ _ _ _ _ K E) as (m & Em) end.
    assert (R : exists m, (if is_true v then run (fun r e => ev m Q r [] e) b' r else Some (r, false)) = Some q).
    { destruct (is_true v); [|exists 0; exact H]. rewrite run_fix in H. clear E Em V.
      match goal with K : Forall2 (inl_stmt P) b b' |- _ => revert r q H; induction K as [|s s' b b' Hs K IHK]; intros r q H end; [exists 0; exact H|].
      inversion IHb as [|? ? HA HB]; subst. cbn in H. apply obind_some in H as (p & E & H). destruct (HA _ Hs _ _ E) as (m1 & E1).
      destruct (snd p) eqn:SP.
      - exists m1. cbn. rewrite E1. cbn. rewrite SP. exact H.
      - destruct (IHK HB _ _ H) as (m2 & E2). exists (max m1 m2). cbn.
        rewrite (exec_mono _ (fun r e => ev (max m1 m2) Q r [] e)) with (2 := E1); [|intros r' e0 v'; apply eval_mono; lia].
        cbn. rewrite SP. eapply run_mono; [|exact E2]. intros r' e0 v'. apply eval_mono. lia. }
    destruct R as (m' & R). exists (max m m'). cbn. rewrite (eval_mono m (max m m') Q r [] c' v ltac:(lia) Em). cbn.
    destruct (is_true v); [|exact R]. rewrite run_fix. eapply run_mono; [|exact R]. intros r' e0 v'. apply eval_mono. lia.
  - exists 0. exact H.
Qed.

Lemma run_inl n P Q :
  (forall r its e e' v, inl P e e' -> ev n P r its e = Some v -> hv Q r its e' v) ->
  forall b b', Forall2 (inl_stmt P) b b' -> forall r q, run (fun r e => ev n P r [] e) b r = Some q ->
  exists m, run (fun r e => ev m Q r [] e) b' r = Some q.
Proof.
  intros IH b b' K. induction K as [|s s' b b' Hs K IHK]; intros r q H; [exists 0; exact H|].
  cbn in H. apply obind_some in H as (p & E & H). destruct (exec_inl n P Q IH _ _ Hs _ _ E) as (m1 & E1).
  destruct (snd p) eqn:SP.
  - exists m1. cbn. rewrite E1. cbn. rewrite SP. exact H.
  - destruct (IHK _ _ H) as (m2 & E2). exists (max m1 m2). cbn.
    rewrite (exec_mono _ (fun r e => ev (max m1 m2) Q r [] e)) with (2 := E1); [|intros r' e0 v'; apply eval_mono; lia].
    cbn. rewrite SP. eapply run_mono; [|exact E2]. intros r' e0 v'. apply eval_mono. lia.
Qed.

Lemma forall2_concat {A B} (R : A -> B -> Prop) l l' : Forall2 (Forall2 R) l l' -> Forall2 R (concat l) (concat l').
Proof. induction 1; cbn; [constructor|]. now apply Forall2_app. Qed.

Lemma nth_inl P l l' k p : inl_vars P l l' -> nth_error l k = Some p -> exists p', nth_error l' k = Some p' /\ fst p' = fst p.
Proof.
  intros V. revert k. induction V as [|a b l l' (E & _) V IH]; intros [|k] H; cbn in *; try discriminate.
  - injection H as <-. exists b. split; [reflexivity|congruence].
  - now apply IH.
Qed.

Lemma call_inl n P Q :
  (forall r its e e' v, inl P e e' -> ev n P r its e = Some v -> hv Q r its e' v) ->
  forall f g, inl_func P f g -> forall k vs v, call (fun r e => ev n P r [] e) f k vs = Some v ->
  exists m, call (fun r e => ev m Q r [] e) g k vs = Some v.
Proof.
  intros IH f g F k vs v H. unfold call in H.
  apply obind_some in H as (c1 & E1 & H). apply obind_some in H as (c2 & E2 & H). apply obind_some in H as (q & E3 & H).
  apply obind_some in H as (o & E4 & H).
  destruct (bind_inputs_inl n P Q IH _ _ (inl_inputs _ _ _ F) _ _ _ E1) as (m1 & F1).
  destruct (init_vars_inl n P Q IH (f_outputs f ++ f_protected f) (f_outputs g ++ f_protected g)) with (2 := E2) as (m2 & F2).
  { apply Forall2_app; [apply (inl_outputs _ _ _ F)|apply (inl_protected _ _ _ F)]. }
  destruct (run_inl n P Q IH _ _ (forall2_concat _ _ _ (inl_algorithms _ _ _ F)) _ _ E3) as (m3 & F3).
  destruct (nth_inl _ _ _ _ _ (inl_outputs _ _ _ F) E4) as (o' & F4 & Eo).
  exists (max m1 (max m2 m3)). unfold call.
  rewrite (bind_inputs_mono _ (fun r e => ev (max m1 (max m2 m3)) Q r [] e)) with (2 := F1); [|intros r' e0 v'; apply eval_mono; lia]. cbn [obind].
  rewrite (init_vars_mono _ (fun r e => ev (max m1 (max m2 m3)) Q r [] e)) with (2 := F2); [|intros r' e0 v'; apply eval_mono; lia]. cbn [obind].
  rewrite (run_mono _ (fun r e => ev (max m1 (max m2 m3)) Q r [] e)) with (2 := F3); [|intros r' e0 v'; apply eval_mono; lia]. cbn [obind].
  rewrite F4. cbn [obind]. rewrite Eo. exact H.
Qed.

Lemma inl_value n : forall P Q r its e e' v, good P -> inl_prog P Q -> inl P e e' -> ev n P r its e = Some v -> hv Q r its e' v.
Proof.
  induction n as [|n IHn]; intros P Q r its e e' v G PQ I H; [discriminate|].
  assert (IH : forall r its e e' v, inl P e e' -> ev n P r its e = Some v -> hv Q r its e' v) by (intros; eapply IHn; eauto).
  inversion I as [w|x|k|o l l' F|o l l' b b' F Fb|f k l l' F|f k l l' fn e0 F Ef Ci Il]; subst; cbn [eval] in H.
  - exists 1. exact H.
  - exists 1. exact H.
  - exists 1. exact H.
  - apply obind_some in H as (vs & E & H). eapply hv_op; [|exact H]. eapply list_inl; eauto.
  - apply obind_some in H as (vs & E & H). apply obind_some in H as (is & E2 & H). apply obind_some in H as (ws & E3 & H).
    eapply hv_reg; [eapply list_inl; eauto|exact E2| |exact H].
    apply mapo_some in E3. clear - E3 Fb IH. induction E3; constructor; eauto.
  - apply obind_some in H as (vs & E & H). apply obind_some in H as (fn & E2 & H).
    specialize (PQ f). rewrite E2 in PQ. destruct (Q f) as [g|] eqn:Eg; [|contradiction].
    destruct (call_inl n P Q IH _ _ PQ _ _ _ H) as (m & Em). eapply hv_call; eauto. eapply list_inl; eauto.
  - apply obind_some in H as (vs & E & H). rewrite Ef in H. cbn in H.
    (* The same function, called in the new program. *)
    assert (RF : inl_func P fn fn).
    { assert (RV : forall l, inl_vars P l l).
      { induction l0 as [|(x & [d|]) l0 IHl]; constructor; auto; split; auto; constructor. apply inl_refl. }
      assert (RS : forall s, inl_stmt P s s).
      { intros s. induction s as [x subs e1|c b IHb|] using stmt_ind'; constructor; auto using inl_refl.
        - induction subs; constructor; auto using inl_refl.
        - induction IHb; constructor; auto. }
      constructor; auto. induction (f_algorithms fn) as [|b l0 IHl]; constructor; auto. induction b; constructor; auto. }
    destruct (call_inl n P Q IH _ _ RF _ _ _ H) as (m & Em).
    destruct (inline_value Q r its fn k l' vs m v (G _ _ Ef Ci)) as (e2 & E2 & V2); [eapply list_inl; eauto|exact Em|].
    rewrite Il in E2. injection E2 as <-. exact V2.
Qed.

(** ** Programs stay as they should be *)

Lemma inl_ind' P (R : expr -> expr -> Prop) :
  (forall v, R (XConst v) (XConst v)) -> (forall x, R (XVar x) (XVar x)) -> (forall k, R (XIter k) (XIter k)) ->
  (forall o l l', Forall2 (inl P) l l' -> Forall2 R l l' -> R (XOp o l) (XOp o l')) ->
  (forall o l l' b b', Forall2 (inl P) l l' -> Forall2 R l l' -> R b b' -> R (XReg o l b) (XReg o l' b')) ->
  (forall f k l l', Forall2 (inl P) l l' -> Forall2 R l l' -> R (XCall f k l) (XCall f k l')) ->
  (forall f k l l' fn e, Forall2 (inl P) l l' -> Forall2 R l l' -> P f = Some fn -> can_inline fn = true ->
     inline_call fn k l' = Ok (e, []) -> R (XCall f k l) e) ->
  forall e e', inl P e e' -> R e e'.
Proof.
  intros H1 H2 H3 H4 H5 H6 H7. fix IH 3. intros e e' I. destruct I as [w|x|k|o l l' F|o l l' b b' F Fb|f k l l' F|f k l l' fn e0 F Ef Ci Il].
  - apply H1.
  - apply H2.
  - apply H3.
  - apply H4; [exact F|]. induction F; constructor; [now apply IH|exact IHF].
  - apply H5; [exact F| |now apply IH]. induction F; constructor; [now apply IH|exact IHF].
  - apply H6; [exact F|]. induction F; constructor; [now apply IH|exact IHF].
  - eapply H7; [exact F| |exact Ef|exact Ci|exact Il]. clear Il. induction F; constructor; [now apply IH|exact IHF].
Qed.

(** A property of what is mapped is one of what comes out. *)
Lemma remap_keeps (R : expr -> Prop) vm :
  (forall v, R (XConst v)) -> (forall k, R (XIter k)) -> (forall o l, Forall R l -> R (XOp o l)) ->
  (forall o l b, Forall R l -> no_reads b -> R (XReg o l b)) -> (forall f k l, Forall R l -> R (XCall f k l)) ->
  (forall x e, vget vm x = Some e -> R e) -> forall e e', plain e -> remap vm e = Ok e' -> R e'.
Proof.
  intros H1 H2 H3 H4 H5 HV e. induction e as [w|x|k|o l IH|o l b IH IHb|f k l IH] using expr_ind'; intros e' Pl H; cbn in H.
  - injection H as <-. apply H1.
  - destruct (vget vm x) eqn:G; [|discriminate]. injection H as <-. now apply (HV x).
  - injection H as <-. apply H2.
  - rewrite remap_list in H. apply bind_ok in H as (l' & E & H). injection H as <-. apply H3.
    cbn in Pl. apply all_forall in Pl. apply map_res_forall2 in E. revert IH Pl. induction E; intros IH Pl; constructor; inversion IH; inversion Pl; subst; auto.
  - rewrite remap_list in H. apply bind_ok in H as (l' & E & H). injection H as <-.
    cbn in Pl. destruct Pl as (Pl & NB). apply H4; [|exact NB]. apply all_forall in Pl. apply map_res_forall2 in E. revert IH Pl. induction E; intros IH Pl; constructor; inversion IH; inversion Pl; subst; auto.
  - rewrite remap_list in H. apply bind_ok in H as (l' & E & H). injection H as <-. apply H5.
    cbn in Pl. apply all_forall in Pl. apply map_res_forall2 in E. revert IH Pl. induction E; intros IH Pl; constructor; inversion IH; inversion Pl; subst; auto.
Qed.

Lemma inline_keeps (R : expr -> Prop) fn k args e res :
  (forall v, R (XConst v)) -> (forall k, R (XIter k)) -> (forall o l, Forall R l -> R (XOp o l)) ->
  (forall o l b, Forall R l -> no_reads b -> R (XReg o l b)) -> (forall f k l, Forall R l -> R (XCall f k l)) ->
  (forall d, no_reads d -> R d) ->
  accepted fn -> Forall R args -> inline_call fn k args = Ok (e, res) -> R e.
Proof.
  intros H1 H2 H3 H4 H5 HD A FA H. unfold inline_call in H.
  apply bind_ok in H as (vm & E1 & H). apply bind_ok in H as (u & E2 & H). apply bind_ok in H as (st & E3 & H).
  apply bind_ok in H as (o & E4 & H). apply bind_ok in H as (e' & E5 & H). injection H as <- _.
  assert (V0 : forall x d, vget (map_defaults fn) x = Some d -> R d).
  { intros x d G. unfold map_defaults in G. rewrite fold_defaults in G.
    destruct (find _ (rev (f_inputs fn))) as [p|] eqn:F; [|discriminate]. apply find_some in F as (J & _). apply in_rev in J.
    pose proof (ac_inputs _ A) as AI. rewrite Forall_forall in AI. specialize (AI p J). rewrite G in AI. now apply HD. }
  assert (V1 : forall x d, vget vm x = Some d -> R d).
  { clear - V0 E1 FA. revert E1 V0. generalize (map_defaults fn) as vm0. generalize (f_inputs fn) as ins. induction FA as [|a args Ha FA IH]; intros ins vm0 E1 V0; cbn in E1.
    - destruct ins; injection E1 as <-; exact V0.
    - destruct ins as [|(x & d) ins]; [discriminate|]. eapply IH; [exact E1|]. intros y e G. rewrite vget_vset in G. destruct (Nat.eqb y x); [now injection G as <-|eauto]. }
  assert (V2 : forall x d, vget (fst st) x = Some d -> R d).
  { clear - V1 E3 A H1 H2 H3 H4 H5. pose proof (ac_body _ A) as AB. revert E3. generalize (@nil stmt) as re. revert vm V1. induction AB as [|s b Hs AB IH]; intros vm V1 re E3; cbn in E3.
    - injection E3 as <-. exact V1.
    - destruct s as [x [|i subs] e|?|]; try contradiction. cbn in E3. apply bind_ok in E3 as (p & E & E3). apply bind_ok in E as (e' & E & E'). injection E' as <-.
      eapply IH; [|exact E3]. intros y d G. rewrite vget_vset in G. destruct (Nat.eqb y x); [|eauto]. injection G as <-.
      eapply (remap_keeps R vm); eauto. }
  destruct (vget (fst st) (fst o)) eqn:G; [|discriminate]. cbn in E5. injection E5 as <-. eauto.
Qed.

Lemma no_reads_plain e : no_reads e -> plain e.
Proof.
  induction e as [w|x|k|o l IH|o l b IH IHb|f k l IH] using expr_ind'; cbn; auto; rewrite !all_forall; intros H.
  - clear - IH H. induction IH; constructor; inversion H; subst; auto.
  - destruct H as (H & NB). split; [|exact NB]. clear - IH H. induction IH; constructor; inversion H; subst; auto.
  - clear - IH H. induction IH; constructor; inversion H; subst; auto.
Qed.

Lemma inl_no_reads P : good P -> forall e e', inl P e e' -> no_reads e -> no_reads e'.
Proof.
  intros G. apply (inl_ind' P (fun e e' => no_reads e -> no_reads e')); auto.
  - intros o l l' _ F. cbn. rewrite !all_forall. intros H. clear - F H. induction F; constructor; inversion H; subst; auto.
  - intros o l l' b b' _ F Fb. cbn. rewrite !all_forall. intros (H & NB). split; [|auto]. clear - F H. induction F; constructor; inversion H; subst; auto.
  - intros f k l l' _ F. cbn. rewrite !all_forall. intros H. clear - F H. induction F; constructor; inversion H; subst; auto.
  - intros f k l l' fn e _ F Ef Ci Il H. cbn in H. apply all_forall in H.
    eapply (inline_keeps no_reads); try exact Il; auto; cbn; auto; try (intros; now apply all_forall).
    + intros o l0 b L NB. split; [now apply all_forall|exact NB].
    + now apply (G f).
    + clear - F H. induction F; constructor; inversion H; subst; auto.
Qed.

Lemma inl_plain P : good P -> forall e e', inl P e e' -> plain e -> plain e'.
Proof.
  intros G.
  assert (K : forall e e', inl P e e' -> (no_reads e -> no_reads e') /\ (plain e -> plain e')).
  { apply (inl_ind' P (fun e e' => (no_reads e -> no_reads e') /\ (plain e -> plain e'))).
    - auto.
    - auto.
    - auto.
    - intros o l l' I F. split; [now apply (inl_no_reads P G); constructor|]. cbn. rewrite !all_forall. intros H. clear - F H. induction F as [|? ? ? ? (_ & ?)]; constructor; inversion H; subst; auto.
    - intros o l l' b b' I F (Fb & _). split.
      + cbn. rewrite !all_forall. intros (H & NB). split; [|auto]. clear - F H. induction F as [|? ? ? ? (? & _)]; constructor; inversion H; subst; auto.
      + cbn. rewrite !all_forall. intros (H & NB). split; [|auto]. clear - F H. induction F as [|? ? ? ? (_ & ?)]; constructor; inversion H; subst; auto.
    - intros f k l l' I F. split; [now apply (inl_no_reads P G); constructor|]. cbn. rewrite !all_forall. intros H. clear - F H. induction F as [|? ? ? ? (_ & ?)]; constructor; inversion H; subst; auto.
    - intros f k l l' fn e I F Ef Ci Il. split; [apply (inl_no_reads P G); econstructor; eauto|]. intros H. cbn in H. apply all_forall in H.
      eapply (inline_keeps plain); try exact Il; auto; cbn; auto; try (intros; now apply all_forall).
      + intros o l0 b L NB. split; [now apply all_forall|exact NB].
      + apply no_reads_plain.
      + now apply (G f).
      + clear - F H. induction F as [|? ? ? ? (_ & ?)]; constructor; inversion H; subst; auto. }
  intros e e' I. now apply K.
Qed.

Lemma has_set_inl P s s' : inl_stmt P s s' -> has_set s = has_set s'.
Proof.
  revert s'. induction s as [x subs e|c b IH|] using stmt_ind'; intros s' I; inversion I; subst; cbn; auto.
  match goal with K : Forall2 (inl_stmt P) b b' |- _ => revert IH; clear - K; induction K as [|s s' b b' Hs K IHK]; intros IH end; [reflexivity|].
  inversion IH; subst. f_equal; auto.
Qed.

Lemma inl_good P Q : good P -> inl_prog P Q -> good Q.
Proof.
  intros G PQ f g Eg C. pose proof (PQ f) as F. rewrite Eg in F. destruct (P f) as [fn|] eqn:Ef; [|contradiction].
  pose proof (forall2_concat _ _ _ (inl_algorithms _ _ _ F)) as FC.
  assert (C' : can_inline fn = true).
  { unfold can_inline in *. rewrite (inl_flag _ _ _ F). apply andb_true_iff in C as (C & CB). apply andb_true_iff in C as (C1 & C2).
    rewrite C1. cbn. assert (L : length (f_algorithms fn) = length (f_algorithms g)) by (clear - F; pose proof (inl_algorithms _ _ _ F) as H; induction H; cbn; congruence).
    rewrite L, C2. cbn. clear - FC CB. induction FC as [|s s' b b' Hs FC IH]; [reflexivity|]. cbn in *. apply andb_true_iff in CB as (CB1 & CB2). rewrite (IH CB2), andb_true_r.
    pose proof (has_set_inl _ _ _ Hs) as E. destruct Hs; auto. now rewrite E. }
  specialize (G f fn Ef C') as A. constructor.
  - assert (E : map fst (f_inputs fn) = map fst (f_inputs g)) by (clear - F; pose proof (inl_inputs _ _ _ F) as H; induction H as [|? ? ? ? (? & _)]; cbn; congruence).
    rewrite <- E. apply (ac_names _ A).
  - pose proof (ac_inputs _ A) as H. pose proof (inl_inputs _ _ _ F) as I. clear - H I G. induction I as [|(x & d) (y & d') l l' (_ & Hd) I IH]; constructor; inversion H; subst; auto.
    cbn in *. inversion Hd; subst; auto. eapply inl_no_reads; eauto.
  - pose proof (ac_others _ A) as H. assert (I : inl_vars P (f_outputs fn ++ f_protected fn) (f_outputs g ++ f_protected g)) by (apply Forall2_app; [apply (inl_outputs _ _ _ F)|apply (inl_protected _ _ _ F)]).
    clear - H I. induction I as [|(x & d) (y & d') l l' (_ & Hd) I IH]; constructor; inversion H; subst; auto. cbn in *. subst d. now inversion Hd.
  - pose proof (ac_body _ A) as H. clear - H FC G. induction FC as [|s s' b b' Hs FC IH]; constructor; inversion H; subst; auto.
    destruct s as [x [|i subs] e|?|]; try contradiction. inversion Hs; subst. match goal with K : Forall2 _ [] _ |- _ => inversion K; subst end. eapply inl_plain; eauto.
Qed.

Lemma inlines_value P e Q d r its v : inlines P e Q d -> good P -> hv P r its e v -> hv Q r its d v.
Proof.
  induction 1 as [P e|P e Q d R c PQ I _ IH]; intros G H; [exact H|]. apply IH; [eapply inl_good; eauto|].
  destruct H as (n & H). eapply inl_value; eauto.
Qed.
End Meaning.

(** ** The functions that are inlined *)
Fixpoint stmt_size (s : stmt) : nat :=
  match s with
  | SIf _ b => S ((fix sum (b : list stmt) := match b with [] => 0 | s :: b' => stmt_size s + sum b' end) b)
  | _ => 1
  end.
Lemma has_set_iff : forall s, has_set s = true <-> (exists x subs e, s = SSet x subs e) \/ assigns_within s.
Proof.
  assert (G : forall n s, stmt_size s < n -> has_set s = true <-> (exists x subs e, s = SSet x subs e) \/ assigns_within s).
  { induction n as [|n IH]; intros s L; [lia|]. destruct s as [x subs e|c b|].
    - split; [intros _; left; now exists x, subs, e|reflexivity].
    - assert (Sz : forall s, In s b -> stmt_size s < n).
      { intros s Hs. cbn [stmt_size] in L. assert (stmt_size s <= (fix sum (b : list stmt) := match b with [] => 0 | s :: b' => stmt_size s + sum b' end) b); [|lia].
        clear - Hs. induction b as [|t b IHb]; [destruct Hs|]. destruct Hs as [->|Hs]; [lia|]. specialize (IHb Hs). lia. }
      assert (Any : has_set (SIf c b) = true <-> exists s, In s b /\ has_set s = true).
      { cbn [has_set]. clear. induction b as [|t b IHb]; [split; [discriminate|intros (s & [] & _)]|].
        rewrite orb_true_iff, IHb. split.
        - intros [H|(s & H & E)]; [exists t; split; [now left|exact H]|exists s; split; [now right|exact E]].
        - intros (s & [->|H] & E); [now left|right; now exists s]. }
      rewrite Any. split.
      + intros (s & Hs & E). right. apply (IH s (Sz s Hs)) in E. destruct E as [(x & subs & e & ->)|W].
        * exact (within_here c b x subs e Hs).
        * exact (within_deeper c b s Hs W).
      + intros [(x & subs & e & H)|H]; [discriminate|]. inversion H as [c0 b0 x subs e Hi|c0 b0 s Hi W]; subst.
        * exists (SSet x subs e). now split.
        * exists s. split; [exact Hi|]. apply (IH s (Sz s Hi)). now right.
    - split; [discriminate|]. intros [(x & subs & e & H)|H]; [discriminate|inversion H]. }
  intros s. exact (G (S (stmt_size s)) s (Nat.lt_succ_diag_r _)).
Qed.
Lemma can_inline_iff : forall f, can_inline f = true <->
  f_inline f = true /\ exists body, f_algorithms f = [body] /\ forall s, In s body -> ~ assigns_within s.
Proof.
  intros f. unfold can_inline. rewrite !andb_true_iff, Nat.eqb_eq, forallb_forall. split.
  - intros ((A & B) & C). split; [exact A|]. destruct (f_algorithms f) as [|body [|? ?]]; try discriminate. exists body. split; [reflexivity|].
    cbn [concat] in C. rewrite app_nil_r in C. intros s Hs W. specialize (C s Hs).
    destruct s as [x subs e|c b|]; [inversion W| |inversion W]. rewrite (proj2 (has_set_iff _) (or_intror W)) in C. discriminate.
  - intros (A & body & E & C). rewrite E. split; [now split|]. cbn [concat]. rewrite app_nil_r. intros s Hs. specialize (C s Hs).
    destruct s as [x subs e|c b|]; [reflexivity| |reflexivity]. apply negb_true_iff, not_true_iff_false. rewrite has_set_iff.
    intros [(x & subs & e & H)|H]; [discriminate|exact (C H)].
Qed.
