(** * The graph runs as the structured operations do (proofs) *)
From Coq Require Import ZArith List Bool Lia.
From Verif Require Import Result StmtModel StmtSpec.
Import ListNotations.
Local Open Scope Z_scope.

Lemma upd_set : upd = set. Proof. reflexivity. Qed.

(** ** Blocks made by the conversion *)

Definition contains (g bl : list (nat * blk)) : Prop :=
  forall i b, In (i, b) bl -> find_blk g i = Some b.

Lemma contains_app g a b : contains g (a ++ b) <-> contains g a /\ contains g b.
Proof.
  unfold contains. split.
  - intros H. split; intros i x Hi; apply H; apply in_or_app; auto.
  - intros [H1 H2] i x Hi. apply in_app_or in Hi. destruct Hi; auto.
Qed.

Lemma contains_cons g i b l : contains g ((i, b) :: l) <-> find_blk g i = Some b /\ contains g l.
Proof.
  unfold contains. split.
  - intros H. split; [apply H; now left|]. intros j x Hj. apply H. now right.
  - intros [H1 H2] j x [E|Hj]; [injection E as -> ->; auto|auto].
Qed.

Definition lp_of (lx : option nat) : bool := match lx with Some _ => true | None => false end.

Ltac okbind H :=
  let q := fresh "q" in let E := fresh "E" in
  apply bind_ok in H; destruct H as (q & E & H);
  destruct q; cbn [fst snd] in *.

Lemma conv_ok : forall o cur pre tl lx rx drop n,
  covered_ops (lp_of lx) drop o ->
  exists bl n', conv o cur pre tl lx rx drop n = Ok (bl, n').
Proof.
  induction o as [|x e r IH|k e r IH|c th IHt has el IHe r IH|k hi b IHb st r IH
                 |c b IHb r IH|r IH|r IH|r IH];
    intros cur pre tl lx rx drop n HC; cbn [conv covered_ops] in *.
  - eauto.
  - now apply IH.
  - now apply IH.
  - destruct HC as [HC1 HC2]. destruct has.
    + destruct HC1 as [_ HC1].
      destruct (IHe (S (S n)) [] (TBr n) lx rx false (S (S (S n))) HC1) as (q & n1 & E1).
      rewrite E1. cbn [bind fst snd].
      destruct (IH n [] tl lx rx drop n1 HC2) as (p & n2 & E2). rewrite E2. cbn. eauto.
    + destruct (IHt (S n) [] (TBr n) lx rx false (S (S n)) HC1) as (q & n1 & E1).
      rewrite E1. cbn [bind fst snd].
      destruct (IH n [] tl lx rx drop n1 HC2) as (p & n2 & E2). rewrite E2. cbn. eauto.
  - destruct HC as [HC1 HC2].
    destruct (IHb (S (S n)) [] (TBr (S (S (S n)))) (Some n) rx true (S (S (S (S n)))) HC1)
      as (q & n1 & E1). rewrite E1. cbn [bind fst snd].
    destruct (IH n [] tl lx rx drop n1 HC2) as (p & n2 & E2). rewrite E2. cbn. eauto.
  - destruct HC as [HC1 HC2].
    destruct (IHb (S (S n)) [] (TBr (S n)) (Some n) rx false (S (S (S n))) HC1)
      as (q & n1 & E1). rewrite E1. cbn [bind fst snd].
    destruct (IH n [] tl lx rx drop n1 HC2) as (p & n2 & E2). rewrite E2. cbn. eauto.
  - destruct HC as [HC1 HC2]. destruct lx as [b|]; [|discriminate].
    destruct (IH n [] tl (Some b) rx drop (S n) HC2) as (p & n2 & E2). rewrite E2. cbn. eauto.
  - destruct (IH n [] tl lx rx drop (S n) HC) as (p & n2 & E2). rewrite E2. cbn. eauto.
  - destruct HC as [-> ->]. cbn. eauto.
Qed.

(** The block being split keeps what it holds. *)
Lemma conv_cur g : forall o cur pre tl lx rx drop n bl n',
  conv o cur pre tl lx rx drop n = Ok (bl, n') -> contains g bl ->
  exists mid t, find_blk g cur = Some (pre ++ mid, t).
Proof.
  induction o as [|x e r IH|k e r IH|c th IHt has el IHe r IH|k hi b IHb st r IH
                 |c b IHb r IH|r IH|r IH|r IH];
    intros cur pre tl lx rx drop n bl n' H HG; cbn [conv] in H.
  - injection H as <- <-. apply contains_cons in HG. exists [], tl. rewrite app_nil_r. tauto.
  - destruct (IH _ _ _ _ _ _ _ _ _ H HG) as (m & t & E).
    rewrite <- app_assoc in E. eauto.
  - destruct (IH _ _ _ _ _ _ _ _ _ H HG) as (m & t & E).
    rewrite <- app_assoc in E. eauto.
  - destruct has; okbind H; okbind H; injection H as <- <-;
      apply contains_cons in HG; destruct HG as [HG _];
      eexists [], _; rewrite app_nil_r; eauto.
  - okbind H; okbind H; injection H as <- <-;
      apply contains_cons in HG; destruct HG as [HG _];
      eexists [], _; rewrite app_nil_r; eauto.
  - okbind H; okbind H; injection H as <- <-;
      apply contains_cons in HG; destruct HG as [HG _];
      eexists [], _; rewrite app_nil_r; eauto.
  - destruct lx; [|discriminate]. okbind H; injection H as <- <-;
      apply contains_cons in HG; destruct HG as [HG _];
      eexists [], _; rewrite app_nil_r; eauto.
  - okbind H; injection H as <- <-;
      apply contains_cons in HG; destruct HG as [HG _];
      eexists [], _; rewrite app_nil_r; eauto.
  - destruct (drop && match r with ONil => true | _ => false end).
    + eauto.
    + destruct (IH _ _ _ _ _ _ _ _ _ H HG) as (m & t & E).
      rewrite <- app_assoc in E. eauto.
Qed.

(** ** Running the graph, in steps *)

Section Run.
Variable g : list (nat * blk).

Inductive steps : conf -> conf -> Prop :=
| steps_refl c : steps c c
| steps_one c c1 c2 : cstep g c = Some c1 -> steps c1 c2 -> steps c c2.

Lemma steps_trans a b c : steps a b -> steps b c -> steps a c.
Proof. induction 1; intros H'; [exact H'|]. econstructor; eauto. Qed.

Fixpoint reaches (n : nat) (c : conf) (sf : istate) : Prop :=
  match n with
  | O => c = (([], TRet), sf)
  | S m => exists c', cstep g c = Some c' /\ reaches m c' sf
  end.

Lemma steps_reaches a b n sf : steps a b -> reaches n b sf -> exists m, reaches m a sf.
Proof.
  induction 1 as [c|c c1 c2 H HS IH]; intros HR; [eauto|].
  destruct (IH HR) as [m Hm]. exists (S m). cbn. eauto.
Qed.

Lemma crun_step : forall n c, c <> (([], TRet), snd c) ->
  crun g (S n) c = match cstep g c with Some c' => crun g n c' | None => Bad end.
Proof.
  intros n [[[|i is] t] s] H; [|reflexivity].
  destruct t; [reflexivity|reflexivity|]. now cbn in H.
Qed.

Lemma final_dec (c : conf) : {c = (([], TRet), snd c)} + {c <> (([], TRet), snd c)}.
Proof.
  destruct c as [[[|i is] t] s]; [|right; discriminate].
  destruct t; [right; discriminate|right; discriminate|left; reflexivity].
Qed.

Lemma crun_reaches : forall n c sf, crun g n c = Ok sf -> exists m, reaches m c sf.
Proof.
  induction n as [|n IH]; intros c sf H; [discriminate|].
  destruct (final_dec c) as [E|E].
  - rewrite E in H. cbn in H. injection H as <-. exists 0%nat. exact E.
  - rewrite crun_step in H by exact E.
    destruct (cstep g c) as [c'|] eqn:Ec; [|discriminate].
    destruct (IH _ _ H) as [m Hm]. exists (S m). cbn [reaches]. eauto.
Qed.

Lemma reaches_crun : forall n c sf, reaches n c sf -> exists m, crun g m c = Ok sf.
Proof.
  induction n as [|n IH]; intros c sf H; cbn [reaches] in H.
  - subst c. exists 1%nat. reflexivity.
  - destruct H as (c' & E & H). destruct (IH _ _ H) as [m Hm]. exists (S m).
    rewrite crun_step; [now rewrite E|]. intros Ef. rewrite Ef in E. discriminate E.
Qed.

Definition target (b : nat) (lx : option nat) (rx : nat) (o : outcome) : nat :=
  match o with
  | Normal => b
  | Breaking => match lx with Some l => l | None => 0%nat end
  | Returning => rx
  end.

Lemma leval_lte s k hi :
  leval s (lte_exp k hi) =
  match leval s hi with Some h => Some (if slots s k <=? h then 1 else 0) | None => None end.
Proof. reflexivity. Qed.

Lemma leval_add s k st :
  leval s (add_exp k st) =
  match leval s st with Some d => Some (slots s k + d) | None => None end.
Proof. reflexivity. Qed.

Lemma raw_runs t : forall o s s' out, only_sets o -> run_ops s o s' out ->
  out = Normal /\ steps ((raw o, t), s) (([], t), s').
Proof.
  induction o; intros s s' out HO HR; cbn [only_sets] in HO; try contradiction;
    inversion HR; subst; cbn [raw].
  - split; [reflexivity|constructor].
  - match goal with H1 : leval _ _ = Some _, H2 : run_ops _ o _ _ |- _ =>
      destruct (IHo _ _ _ HO H2) as [-> HS]; split; [reflexivity|];
      econstructor; [|exact HS]; cbn; rewrite H1; reflexivity end.
  - match goal with H1 : leval _ _ = Some _, H2 : run_ops _ o _ _ |- _ =>
      destruct (IHo _ _ _ HO H2) as [-> HS]; split; [reflexivity|];
      econstructor; [|exact HS]; cbn; rewrite H1; reflexivity end.
Qed.

Lemma goto_some b is t s : find_blk g b = Some (is, t) -> goto g b s = Some ((is, t), s).
Proof. intros H. unfold goto. now rewrite H. Qed.

Lemma br_step b s : cstep g (([], TBr b), s) = goto g b s.
Proof. reflexivity. Qed.

Lemma cond_step e b1 b2 s v : leval s e = Some v ->
  cstep g (([], TCond e b1 b2), s) = goto g (if v =? 0 then b2 else b1) s.
Proof. intros H. cbn. now rewrite H. Qed.

(** ** Every run of the operations is a run of the graph *)

Definition P_ops s o s' out : Prop :=
  forall cur pre b lx rx drop n bl n' c',
    conv o cur pre (TBr b) lx rx drop n = Ok (bl, n') ->
    covered_ops (lp_of lx) drop o -> contains g bl ->
    goto g (target b lx rx out) s' = Some c' ->
    exists mid t, find_blk g cur = Some (pre ++ mid, t) /\ steps ((mid, t), s) c'.

Definition P_then s o1 r s' out : Prop :=
  forall cur b lx rx drop n bl n' c',
    conv r cur [] (TBr b) lx rx drop n = Ok (bl, n') ->
    covered_ops (lp_of lx) drop r -> contains g bl ->
    goto g (target b lx rx out) s' = Some c' ->
    exists c1, goto g (target cur lx rx o1) s = Some c1 /\ steps c1 c'.

Definition P_for s k hi body st s' out : Prop :=
  forall cont cb bb sb rx n bl n',
    conv body bb [] (TBr sb) (Some cont) rx true n = Ok (bl, n') ->
    covered_ops true true body -> contains g bl ->
    find_blk g cb = Some ([], TCond (lte_exp k hi) bb cont) ->
    find_blk g sb = Some ([IStore k (add_exp k st)], TBr cb) ->
    out <> Breaking /\
    forall lx c', goto g (target cont lx rx out) s' = Some c' ->
    steps (([], TCond (lte_exp k hi) bb cont), s) c'.

Definition P_while s c body s' out : Prop :=
  forall cont cb bb rx n bl n',
    conv body bb [] (TBr cb) (Some cont) rx false n = Ok (bl, n') ->
    covered_ops true false body -> contains g bl ->
    find_blk g cb = Some ([], TCond c bb cont) ->
    out <> Breaking /\
    forall lx c', goto g (target cont lx rx out) s' = Some c' ->
    steps (([], TCond c bb cont), s) c'.

Scheme run_ops_ind2 := Induction for run_ops Sort Prop
  with run_then_ind2 := Induction for run_then Sort Prop
  with run_for_ind2 := Induction for run_for Sort Prop
  with run_while_ind2 := Induction for run_while Sort Prop.
Combined Scheme run_mut from run_ops_ind2, run_then_ind2, run_for_ind2, run_while_ind2.

Lemma find_goto i x c s : find_blk g i = Some x -> goto g i s = Some c -> c = (x, s).
Proof. intros H. unfold goto. rewrite H. now intros [= <-]. Qed.

Theorem forward :
  (forall s o s' out, run_ops s o s' out -> P_ops s o s' out) /\
  (forall s o1 r s' out, run_then s o1 r s' out -> P_then s o1 r s' out) /\
  (forall s k hi body st s' out, run_for s k hi body st s' out -> P_for s k hi body st s' out) /\
  (forall s c body s' out, run_while s c body s' out -> P_while s c body s' out).
Proof.
  apply run_mut.
  - (* nil *)
    intros s cur pre b lx rx drop n bl n' c' H HC HG Hc. cbn in H. injection H as <- <-.
    apply contains_cons in HG. destruct HG as [HG _].
    exists [], (TBr b). rewrite app_nil_r. split; [exact HG|].
    econstructor; [exact Hc|constructor].
  - (* set *)
    intros s x e r v s' o Hv _ IH cur pre b lx rx drop n bl n' c' H HC HG Hc.
    cbn [conv covered_ops] in H, HC.
    destruct (IH _ _ _ _ _ _ _ _ _ _ H HC HG Hc) as (mid & t & Hf & HS).
    exists (ISet x e :: mid), t. rewrite <- app_assoc in Hf. split; [exact Hf|].
    econstructor; [|exact HS]. cbn. rewrite Hv. reflexivity.
  - (* store *)
    intros s k e r v s' o Hv _ IH cur pre b lx rx drop n bl n' c' H HC HG Hc.
    cbn [conv covered_ops] in H, HC.
    destruct (IH _ _ _ _ _ _ _ _ _ _ H HC HG Hc) as (mid & t & Hf & HS).
    exists (IStore k e :: mid), t. rewrite <- app_assoc in Hf. split; [exact Hf|].
    econstructor; [|exact HS]. cbn. rewrite Hv. reflexivity.
  - (* if *)
    intros s c th has el r v s1 o1 s' o Hv HR IHb _ IHt
           cur pre b lx rx drop n bl n' c' H HC HG Hc.
    cbn [conv covered_ops] in H, HC. destruct HC as [HC1 HC2].
    destruct has.
    + destruct HC1 as [HCt HCe]. okbind H. okbind H. injection H as <- <-.
      apply contains_cons in HG. destruct HG as [HG1 HG].
      apply contains_cons in HG. destruct HG as [HG2 HG].
      apply contains_app in HG. destruct HG as [HGq HGp].
      exists [], (TCond c (S n) (S (S n))). rewrite app_nil_r. split; [exact HG1|].
      destruct (IHt _ _ _ _ _ _ _ _ _ E0 HC2 HGp Hc) as (c1 & Hc1 & HS).
      destruct (v =? 0) eqn:Ev.
      * destruct (IHb _ _ _ _ _ _ _ _ _ _ E HCe HGq Hc1) as (mid & t & Hf & HS1).
        cbn [app] in Hf.
        econstructor; [rewrite (cond_step _ _ _ _ _ Hv), Ev; apply goto_some; exact Hf|].
        eapply steps_trans; eauto.
      * destruct (raw_runs (TBr n) _ _ _ _ HCt HR) as [-> HS1].
        econstructor; [rewrite (cond_step _ _ _ _ _ Hv), Ev; apply goto_some; exact HG2|].
        eapply steps_trans; [exact HS1|]. econstructor; [exact Hc1|exact HS].
    + okbind H. okbind H. injection H as <- <-.
      apply contains_cons in HG. destruct HG as [HG1 HG].
      apply contains_app in HG. destruct HG as [HGq HGp].
      exists [], (TCond c (S n) n). rewrite app_nil_r. split; [exact HG1|].
      destruct (IHt _ _ _ _ _ _ _ _ _ E0 HC2 HGp Hc) as (c1 & Hc1 & HS).
      destruct (v =? 0) eqn:Ev.
      * inversion HR; subst. cbn [target] in Hc1.
        econstructor; [rewrite (cond_step _ _ _ _ _ Hv), Ev; exact Hc1|exact HS].
      * destruct (IHb _ _ _ _ _ _ _ _ _ _ E HC1 HGq Hc1) as (mid & t & Hf & HS1).
        cbn [app] in Hf.
        econstructor; [rewrite (cond_step _ _ _ _ _ Hv), Ev; apply goto_some; exact Hf|].
        eapply steps_trans; eauto.
  - (* for *)
    intros s k hi body st r s1 o1 s' o _ IHl _ IHt cur pre b lx rx drop n bl n' c' H HC HG Hc.
    cbn [conv covered_ops] in H, HC. destruct HC as [HC1 HC2].
    okbind H. okbind H. injection H as <- <-.
    apply contains_cons in HG. destruct HG as [HG1 HG].
    apply contains_cons in HG. destruct HG as [HG2 HG].
    apply contains_cons in HG. destruct HG as [HG3 HG].
    apply contains_app in HG. destruct HG as [HGq HGp].
    exists [], (TBr (S n)). rewrite app_nil_r. split; [exact HG1|].
    destruct (IHt _ _ _ _ _ _ _ _ _ E0 HC2 HGp Hc) as (c1 & Hc1 & HS).
    destruct (IHl _ _ _ _ _ _ _ _ E HC1 HGq HG2 HG3) as [_ HL].
    econstructor; [apply goto_some; exact HG2|].
    eapply steps_trans; [eapply HL; exact Hc1|exact HS].
  - (* while *)
    intros s c body r s1 o1 s' o _ IHl _ IHt cur pre b lx rx drop n bl n' c' H HC HG Hc.
    cbn [conv covered_ops] in H, HC. destruct HC as [HC1 HC2].
    okbind H. okbind H. injection H as <- <-.
    apply contains_cons in HG. destruct HG as [HG1 HG].
    apply contains_cons in HG. destruct HG as [HG2 HG].
    apply contains_app in HG. destruct HG as [HGq HGp].
    exists [], (TBr (S n)). rewrite app_nil_r. split; [exact HG1|].
    destruct (IHt _ _ _ _ _ _ _ _ _ E0 HC2 HGp Hc) as (c1 & Hc1 & HS).
    destruct (IHl _ _ _ _ _ _ _ E HC1 HGq HG2) as [_ HL].
    econstructor; [apply goto_some; exact HG2|].
    eapply steps_trans; [eapply HL; exact Hc1|exact HS].
  - (* break *)
    intros s r cur pre b lx rx drop n bl n' c' H HC HG Hc. cbn [conv] in H.
    destruct lx as [l|]; [|discriminate]. okbind H. injection H as <- <-.
    apply contains_cons in HG. destruct HG as [HG1 _].
    exists [], (TBr l). rewrite app_nil_r. split; [exact HG1|].
    econstructor; [exact Hc|constructor].
  - (* return *)
    intros s r cur pre b lx rx drop n bl n' c' H HC HG Hc. cbn [conv] in H.
    okbind H. injection H as <- <-.
    apply contains_cons in HG. destruct HG as [HG1 _].
    exists [], (TBr rx). rewrite app_nil_r. split; [exact HG1|].
    econstructor; [exact Hc|constructor].
  - (* yield *)
    intros s cur pre b lx rx drop n bl n' c' H HC HG Hc. cbn [conv covered_ops] in H, HC.
    destruct HC as [-> _]. cbn in H. injection H as <- <-.
    apply contains_cons in HG. destruct HG as [HG _].
    exists [], (TBr b). rewrite app_nil_r. split; [exact HG|].
    econstructor; [exact Hc|constructor].
  - (* then: go *)
    intros s r s' o _ IH cur b lx rx drop n bl n' c' H HC HG Hc.
    destruct (IH _ _ _ _ _ _ _ _ _ _ H HC HG Hc) as (mid & t & Hf & HS).
    exists ((mid, t), s). split; [apply goto_some; exact Hf|exact HS].
  - (* then: stop *)
    intros s o r Ho cur b lx rx drop n bl n' c' H HC HG Hc.
    exists c'. split; [|constructor]. destruct o; [congruence|exact Hc|exact Hc].
  - (* for: done *)
    intros s k hi body st h Hh Hlt cont cb bb sb rx n bl n' H HC HG H2 H3.
    split; [discriminate|]. intros lx c' Hc. cbn [target] in Hc.
    econstructor; [|constructor].
    rewrite (cond_step _ _ _ _ 0); [exact Hc|].
    rewrite leval_lte, Hh. destruct (Z.leb_spec (slots s k) h); [lia|reflexivity].
  - (* for: again *)
    intros s k hi body st h s1 d s' o Hh Hle _ IHb Hd _ IHl
           cont cb bb sb rx n bl n' H HC HG H2 H3.
    destruct (IHl _ _ _ _ _ _ _ _ H HC HG H2 H3) as [Ho HL].
    split; [exact Ho|]. intros lx c' Hc.
    destruct (IHb _ _ _ _ _ _ _ _ _ _ H HC HG (goto_some _ _ _ s1 H3)) as (mid & t & Hf & HS).
    cbn [app] in Hf.
    econstructor.
    { rewrite (cond_step _ _ _ _ 1); [apply goto_some; exact Hf|].
      rewrite leval_lte, Hh. destruct (Z.leb_spec (slots s k) h); [reflexivity|lia]. }
    eapply steps_trans; [exact HS|].
    econstructor.
    { cbn [cstep]. rewrite leval_add, Hd. reflexivity. }
    econstructor; [apply goto_some; exact H2|]. eapply HL; exact Hc.
  - (* for: break *)
    intros s k hi body st h s1 Hh Hle _ IHb cont cb bb sb rx n bl n' H HC HG H2 H3.
    split; [discriminate|]. intros lx c' Hc. cbn [target] in Hc.
    destruct (IHb _ _ _ _ _ _ _ _ _ _ H HC HG Hc) as (mid & t & Hf & HS).
    cbn [app] in Hf.
    econstructor; [|exact HS].
    rewrite (cond_step _ _ _ _ 1); [apply goto_some; exact Hf|].
    rewrite leval_lte, Hh. destruct (Z.leb_spec (slots s k) h); [reflexivity|lia].
  - (* for: return *)
    intros s k hi body st h s1 Hh Hle _ IHb cont cb bb sb rx n bl n' H HC HG H2 H3.
    split; [discriminate|]. intros lx c' Hc. cbn [target] in Hc.
    destruct (IHb _ _ _ _ _ _ _ _ _ _ H HC HG Hc) as (mid & t & Hf & HS).
    cbn [app] in Hf.
    econstructor; [|exact HS].
    rewrite (cond_step _ _ _ _ 1); [apply goto_some; exact Hf|].
    rewrite leval_lte, Hh. destruct (Z.leb_spec (slots s k) h); [reflexivity|lia].
  - (* while: done *)
    intros s c body Hc0 cont cb bb rx n bl n' H HC HG H2.
    split; [discriminate|]. intros lx c' Hc. cbn [target] in Hc.
    econstructor; [|constructor]. rewrite (cond_step _ _ _ _ 0); [exact Hc|exact Hc0].
  - (* while: again *)
    intros s c body v s1 s' o Hv Hnz _ IHb _ IHl cont cb bb rx n bl n' H HC HG H2.
    destruct (IHl _ _ _ _ _ _ _ H HC HG H2) as [Ho HL].
    split; [exact Ho|]. intros lx c' Hc.
    destruct (IHb _ _ _ _ _ _ _ _ _ _ H HC HG (goto_some _ _ _ s1 H2)) as (mid & t & Hf & HS).
    cbn [app] in Hf. apply Z.eqb_neq in Hnz.
    econstructor.
    { rewrite (cond_step _ _ _ _ _ Hv), Hnz. apply goto_some; exact Hf. }
    eapply steps_trans; [exact HS|]. eapply HL; exact Hc.
  - (* while: break *)
    intros s c body v s1 Hv Hnz _ IHb cont cb bb rx n bl n' H HC HG H2.
    split; [discriminate|]. intros lx c' Hc. cbn [target] in Hc.
    destruct (IHb _ _ _ _ _ _ _ _ _ _ H HC HG Hc) as (mid & t & Hf & HS).
    cbn [app] in Hf. apply Z.eqb_neq in Hnz.
    econstructor; [|exact HS].
    rewrite (cond_step _ _ _ _ _ Hv), Hnz. apply goto_some; exact Hf.
  - (* while: return *)
    intros s c body v s1 Hv Hnz _ IHb cont cb bb rx n bl n' H HC HG H2.
    split; [discriminate|]. intros lx c' Hc. cbn [target] in Hc.
    destruct (IHb _ _ _ _ _ _ _ _ _ _ H HC HG Hc) as (mid & t & Hf & HS).
    cbn [app] in Hf. apply Z.eqb_neq in Hnz.
    econstructor; [|exact HS].
    rewrite (cond_step _ _ _ _ _ Hv), Hnz. apply goto_some; exact Hf.
Qed.

(** ** Every run of the graph is a run of the operations *)

Definition B_ops (o : ops) : Prop :=
  forall cur pre b lx rx drop n bl n' mid t s sf N,
    conv o cur pre (TBr b) lx rx drop n = Ok (bl, n') ->
    covered_ops (lp_of lx) drop o -> contains g bl ->
    find_blk g cur = Some (pre ++ mid, t) ->
    reaches N ((mid, t), s) sf ->
    exists s' out N' c', (N' < N)%nat /\ run_ops s o s' out /\
      goto g (target b lx rx out) s' = Some c' /\ reaches N' c' sf.

Lemma split_reaches c N sf : c <> (([], TRet), sf) -> reaches N c sf ->
  exists m c', N = S m /\ cstep g c = Some c' /\ reaches m c' sf.
Proof.
  destruct N as [|m]; cbn [reaches]; [congruence|].
  intros _ (c' & H1 & H2). eauto.
Qed.

Lemma raw_back t : forall o s N sf, only_sets o -> t <> TRet -> reaches N ((raw o, t), s) sf ->
  exists s' m, (m <= N)%nat /\ run_ops s o s' Normal /\ reaches m (([], t), s') sf.
Proof.
  induction o; intros s N sf HO Ht HR; cbn [only_sets] in HO; try contradiction; cbn [raw] in HR.
  - exists s, N. repeat split; [lia|constructor|exact HR].
  - apply split_reaches in HR; [|discriminate]. destruct HR as (m & c' & -> & Hs & HR).
    cbn in Hs. destruct (leval s e) as [v|] eqn:Ev; [|discriminate]. injection Hs as <-.
    destruct (IHo _ _ _ HO Ht HR) as (s' & m' & Hm & Hrun & HR').
    exists s', m'. repeat split; [lia| |exact HR']. econstructor; eauto.
  - apply split_reaches in HR; [|discriminate]. destruct HR as (m & c' & -> & Hs & HR).
    cbn in Hs. destruct (leval s e) as [v|] eqn:Ev; [|discriminate]. injection Hs as <-.
    destruct (IHo _ _ _ HO Ht HR) as (s' & m' & Hm & Hrun & HR').
    exists s', m'. repeat split; [lia| |exact HR']. econstructor; eauto.
Qed.

(** What follows a branch, an alternative or a loop. *)
Lemma then_back r : B_ops r ->
  forall cur b lx rx drop n bl n' s1 o1 c1 sf N,
    conv r cur [] (TBr b) lx rx drop n = Ok (bl, n') ->
    covered_ops (lp_of lx) drop r -> contains g bl ->
    goto g (target cur lx rx o1) s1 = Some c1 -> reaches N c1 sf ->
    exists s' out N' c', (N' <= N)%nat /\ run_then s1 o1 r s' out /\
      goto g (target b lx rx out) s' = Some c' /\ reaches N' c' sf.
Proof.
  intros HB cur b lx rx drop n bl n' s1 o1 c1 sf N H HC HG Hc HR.
  destruct o1.
  - destruct (conv_cur g _ _ _ _ _ _ _ _ _ _ H HG) as (mid & t & Hf). cbn [app target] in Hf, Hc.
    rewrite (goto_some _ _ _ s1 Hf) in Hc. injection Hc as <-.
    destruct (HB _ _ _ _ _ _ _ _ _ mid t s1 sf N H HC HG Hf HR) as (s' & out & N' & c' & HN & HX & Hg & HR').
    exists s', out, N', c'. repeat split; [lia|now constructor|exact Hg|exact HR'].
  - exists s1, Breaking, N, c1. repeat split; [lia|now constructor|exact Hc|exact HR].
  - exists s1, Returning, N, c1. repeat split; [lia|now constructor|exact Hc|exact HR].
Qed.

Lemma for_back k hi body st : B_ops body ->
  forall N cont cb bb sb rx n bl n' s sf,
    conv body bb [] (TBr sb) (Some cont) rx true n = Ok (bl, n') ->
    covered_ops true true body -> contains g bl ->
    find_blk g cb = Some ([], TCond (lte_exp k hi) bb cont) ->
    find_blk g sb = Some ([IStore k (add_exp k st)], TBr cb) ->
    reaches N (([], TCond (lte_exp k hi) bb cont), s) sf ->
    exists s' out N' c', (N' <= N)%nat /\ run_for s k hi body st s' out /\ out <> Breaking /\
      (forall lx, goto g (target cont lx rx out) s' = Some c') /\ reaches N' c' sf.
Proof.
  intros HB. induction N as [N IHN] using lt_wf_ind.
  intros cont cb bb sb rx n bl n' s sf H HC HG H2 H3 HR.
  apply split_reaches in HR; [|discriminate]. destruct HR as (m & c1 & -> & Hs & HR).
  cbn [cstep] in Hs. rewrite leval_lte in Hs.
  destruct (leval s hi) as [h|] eqn:Eh; [|discriminate].
  destruct (Z.leb_spec (slots s k) h) as [Hle|Hlt]; cbn [Z.eqb] in Hs.
  - destruct (conv_cur g _ _ _ _ _ _ _ _ _ _ H HG) as (mid & t & Hf). cbn [app] in Hf.
    rewrite (goto_some _ _ _ s Hf) in Hs. injection Hs as <-.
    destruct (HB _ _ _ _ _ _ _ _ _ mid t s sf m H HC HG Hf HR)
      as (s1 & o1 & N1 & c1 & HN1 & HX & Hg1 & HR1).
    destruct o1; cbn [target] in Hg1.
    + rewrite (goto_some _ _ _ s1 H3) in Hg1. injection Hg1 as <-.
      apply split_reaches in HR1; [|discriminate]. destruct HR1 as (m1 & c2 & -> & Hs2 & HR1).
      cbn [cstep] in Hs2. rewrite leval_add in Hs2.
      destruct (leval s1 st) as [d|] eqn:Ed; [|discriminate]. injection Hs2 as <-.
      apply split_reaches in HR1; [|discriminate]. destruct HR1 as (m2 & c3 & -> & Hs3 & HR1).
      cbn [cstep] in Hs3. rewrite (goto_some _ _ _ _ H2) in Hs3. injection Hs3 as <-.
      destruct (IHN m2 ltac:(lia) _ _ _ _ _ _ _ _ _ _ H HC HG H2 H3 HR1)
        as (s' & out & N' & c' & HN' & HX' & Ho & Hg' & HR').
      exists s', out, N', c'. repeat split; [lia| |exact Ho|exact Hg'|exact HR'].
      eapply R_for_again; eauto.
    + exists s1, Normal, N1, c1. repeat split; [lia| |discriminate|intros; exact Hg1|exact HR1].
      eapply R_for_break; eauto.
    + exists s1, Returning, N1, c1. repeat split; [lia| |discriminate|intros; exact Hg1|exact HR1].
      eapply R_for_return; eauto.
  - exists s, Normal, m, c1. repeat split; [lia| |discriminate|intros; exact Hs|exact HR].
    eapply R_for_done; eauto.
Qed.

Lemma while_back c body : B_ops body ->
  forall N cont cb bb rx n bl n' s sf,
    conv body bb [] (TBr cb) (Some cont) rx false n = Ok (bl, n') ->
    covered_ops true false body -> contains g bl ->
    find_blk g cb = Some ([], TCond c bb cont) ->
    reaches N (([], TCond c bb cont), s) sf ->
    exists s' out N' c', (N' <= N)%nat /\ run_while s c body s' out /\ out <> Breaking /\
      (forall lx, goto g (target cont lx rx out) s' = Some c') /\ reaches N' c' sf.
Proof.
  intros HB. induction N as [N IHN] using lt_wf_ind.
  intros cont cb bb rx n bl n' s sf H HC HG H2 HR.
  apply split_reaches in HR; [|discriminate]. destruct HR as (m & c1 & -> & Hs & HR).
  cbn [cstep] in Hs.
  destruct (leval s c) as [v|] eqn:Ev; [|discriminate].
  destruct (Z.eqb_spec v 0) as [->|Hnz].
  - exists s, Normal, m, c1. repeat split; [lia| |discriminate|intros; exact Hs|exact HR].
    eapply R_while_done; eauto.
  - destruct (conv_cur g _ _ _ _ _ _ _ _ _ _ H HG) as (mid & t & Hf). cbn [app] in Hf.
    rewrite (goto_some _ _ _ s Hf) in Hs. injection Hs as <-.
    destruct (HB _ _ _ _ _ _ _ _ _ mid t s sf m H HC HG Hf HR)
      as (s1 & o1 & N1 & c1 & HN1 & HX & Hg1 & HR1).
    destruct o1; cbn [target] in Hg1.
    + rewrite (goto_some _ _ _ s1 H2) in Hg1. injection Hg1 as <-.
      destruct (IHN N1 ltac:(lia) _ _ _ _ _ _ _ _ _ H HC HG H2 HR1)
        as (s' & out & N' & c' & HN' & HX' & Ho & Hg' & HR').
      exists s', out, N', c'. repeat split; [lia| |exact Ho|exact Hg'|exact HR'].
      eapply R_while_again; eauto.
    + exists s1, Normal, N1, c1. repeat split; [lia| |discriminate|intros; exact Hg1|exact HR1].
      eapply R_while_break; eauto.
    + exists s1, Returning, N1, c1. repeat split; [lia| |discriminate|intros; exact Hg1|exact HR1].
      eapply R_while_return; eauto.
Qed.

Lemma same_cur cur pre mid t b : find_blk g cur = Some (pre ++ mid, t) ->
  find_blk g cur = Some (pre, b) -> mid = [] /\ t = b.
Proof.
  intros H1 H2. rewrite H1 in H2. injection H2 as E ->. split; [|reflexivity].
  rewrite <- (app_nil_r pre) in E at 2. now apply app_inv_head in E.
Qed.

Theorem backward : forall o, B_ops o.
Proof.
  induction o as [|x e r IH|k e r IH|c th IHt has el IHe r IH|k hi b0 IHb st r IH
                 |c b0 IHb r IH|r IH|r IH|r IH];
    intros cur pre b lx rx drop n bl n' mid t s sf N H HC HG Hf HR;
    cbn [conv covered_ops] in H, HC.
  - injection H as <- <-. apply contains_cons in HG. destruct HG as [HG _].
    destruct (same_cur _ _ _ _ _ Hf HG) as [-> ->].
    apply split_reaches in HR; [|discriminate]. destruct HR as (m & c' & -> & Hs & HR).
    exists s, Normal, m, c'. repeat split; [lia|constructor|exact Hs|exact HR].
  - destruct (conv_cur g _ _ _ _ _ _ _ _ _ _ H HG) as (mid' & t' & Hf').
    rewrite <- app_assoc in Hf'. rewrite Hf in Hf'. injection Hf' as E ->.
    apply app_inv_head in E. subst mid. cbn [app] in *.
    apply split_reaches in HR; [|discriminate]. destruct HR as (m & c' & -> & Hs & HR).
    cbn in Hs. destruct (leval s e) as [v|] eqn:Ev; [|discriminate]. injection Hs as <-.
    replace (pre ++ ISet x e :: mid') with ((pre ++ [ISet x e]) ++ mid') in Hf
      by now rewrite <- app_assoc.
    destruct (IH _ _ _ _ _ _ _ _ _ _ _ _ _ _ H HC HG Hf HR) as (s' & out & N' & c' & HN & HX & Hg & HR').
    exists s', out, N', c'. repeat split; [lia| |exact Hg|exact HR']. econstructor; eauto.
  - destruct (conv_cur g _ _ _ _ _ _ _ _ _ _ H HG) as (mid' & t' & Hf').
    rewrite <- app_assoc in Hf'. rewrite Hf in Hf'. injection Hf' as E ->.
    apply app_inv_head in E. subst mid. cbn [app] in *.
    apply split_reaches in HR; [|discriminate]. destruct HR as (m & c' & -> & Hs & HR).
    cbn in Hs. destruct (leval s e) as [v|] eqn:Ev; [|discriminate]. injection Hs as <-.
    replace (pre ++ IStore k e :: mid') with ((pre ++ [IStore k e]) ++ mid') in Hf
      by now rewrite <- app_assoc.
    destruct (IH _ _ _ _ _ _ _ _ _ _ _ _ _ _ H HC HG Hf HR) as (s' & out & N' & c' & HN & HX & Hg & HR').
    exists s', out, N', c'. repeat split; [lia| |exact Hg|exact HR']. econstructor; eauto.
  - destruct HC as [HC1 HC2]. destruct has.
    + destruct HC1 as [HCt HCe]. okbind H. okbind H. injection H as <- <-.
      apply contains_cons in HG. destruct HG as [HG1 HG].
      apply contains_cons in HG. destruct HG as [HG2 HG].
      apply contains_app in HG. destruct HG as [HGq HGp].
      destruct (same_cur _ _ _ _ _ Hf HG1) as [-> ->].
      apply split_reaches in HR; [|discriminate]. destruct HR as (m & c' & -> & Hs & HR).
      cbn [cstep] in Hs. destruct (leval s c) as [v|] eqn:Ev; [|discriminate].
      destruct (v =? 0) eqn:Ez.
      * destruct (conv_cur g _ _ _ _ _ _ _ _ _ _ E HGq) as (mid' & t' & Hf'). cbn [app] in Hf'.
        rewrite (goto_some _ _ _ s Hf') in Hs. injection Hs as <-.
        destruct (IHe _ _ _ _ _ _ _ _ _ mid' t' s sf m E HCe HGq Hf' HR)
          as (s1 & o1 & N1 & c1 & HN1 & HX & Hg1 & HR1).
        destruct (then_back r IH _ _ _ _ _ _ _ _ _ _ _ _ _ E0 HC2 HGp Hg1 HR1)
          as (s' & out & N' & c' & HN & HX' & Hg & HR').
        exists s', out, N', c'. repeat split; [lia| |exact Hg|exact HR'].
        eapply R_if with (v := v); [exact Ev|rewrite Ez; exact HX|exact HX'].
      * rewrite (goto_some _ _ _ s HG2) in Hs. injection Hs as <-.
        destruct (raw_back (TBr n) _ _ _ _ HCt ltac:(discriminate) HR) as (s1 & m1 & Hm1 & HX & HR1).
        apply split_reaches in HR1; [|discriminate]. destruct HR1 as (m2 & c1 & -> & Hs1 & HR1).
        destruct (then_back r IH _ _ _ _ _ _ _ _ s1 Normal _ _ _ E0 HC2 HGp Hs1 HR1)
          as (s' & out & N' & c' & HN & HX' & Hg & HR').
        exists s', out, N', c'. repeat split; [lia| |exact Hg|exact HR'].
        eapply R_if with (v := v); [exact Ev|rewrite Ez; exact HX|exact HX'].
    + okbind H. okbind H. injection H as <- <-.
      apply contains_cons in HG. destruct HG as [HG1 HG].
      apply contains_app in HG. destruct HG as [HGq HGp].
      destruct (same_cur _ _ _ _ _ Hf HG1) as [-> ->].
      apply split_reaches in HR; [|discriminate]. destruct HR as (m & c' & -> & Hs & HR).
      cbn [cstep] in Hs. destruct (leval s c) as [v|] eqn:Ev; [|discriminate].
      destruct (v =? 0) eqn:Ez.
      * destruct (then_back r IH _ _ _ _ _ _ _ _ s Normal _ _ _ E0 HC2 HGp Hs HR)
          as (s' & out & N' & c1 & HN & HX' & Hg & HR').
        exists s', out, N', c1. repeat split; [lia| |exact Hg|exact HR'].
        eapply R_if with (v := v) (s1 := s) (o1 := Normal);
          [exact Ev|rewrite Ez; constructor|exact HX'].
      * destruct (conv_cur g _ _ _ _ _ _ _ _ _ _ E HGq) as (mid' & t' & Hf'). cbn [app] in Hf'.
        rewrite (goto_some _ _ _ s Hf') in Hs. injection Hs as <-.
        destruct (IHt _ _ _ _ _ _ _ _ _ mid' t' s sf m E HC1 HGq Hf' HR)
          as (s1 & o1 & N1 & c1 & HN1 & HX & Hg1 & HR1).
        destruct (then_back r IH _ _ _ _ _ _ _ _ _ _ _ _ _ E0 HC2 HGp Hg1 HR1)
          as (s' & out & N' & c' & HN & HX' & Hg & HR').
        exists s', out, N', c'. repeat split; [lia| |exact Hg|exact HR'].
        eapply R_if with (v := v); [exact Ev|rewrite Ez; exact HX|exact HX'].
  - destruct HC as [HC1 HC2]. okbind H. okbind H. injection H as <- <-.
    apply contains_cons in HG. destruct HG as [HG1 HG].
    apply contains_cons in HG. destruct HG as [HG2 HG].
    apply contains_cons in HG. destruct HG as [HG3 HG].
    apply contains_app in HG. destruct HG as [HGq HGp].
    destruct (same_cur _ _ _ _ _ Hf HG1) as [-> ->].
    apply split_reaches in HR; [|discriminate]. destruct HR as (m & c' & -> & Hs & HR).
    cbn [cstep] in Hs. rewrite (goto_some _ _ _ s HG2) in Hs. injection Hs as <-.
    destruct (for_back k hi b0 st IHb _ _ _ _ _ _ _ _ _ _ _ E HC1 HGq HG2 HG3 HR)
      as (s1 & o1 & N1 & c1 & HN1 & HX & Ho & Hg1 & HR1).
    destruct (then_back r IH _ _ _ _ _ _ _ _ s1 o1 _ _ _ E0 HC2 HGp (Hg1 lx) HR1)
      as (s' & out & N' & c' & HN & HX' & Hg & HR').
    exists s', out, N', c'. repeat split; [lia| |exact Hg|exact HR'].
    eapply R_for; eauto.
  - destruct HC as [HC1 HC2]. okbind H. okbind H. injection H as <- <-.
    apply contains_cons in HG. destruct HG as [HG1 HG].
    apply contains_cons in HG. destruct HG as [HG2 HG].
    apply contains_app in HG. destruct HG as [HGq HGp].
    destruct (same_cur _ _ _ _ _ Hf HG1) as [-> ->].
    apply split_reaches in HR; [|discriminate]. destruct HR as (m & c' & -> & Hs & HR).
    cbn [cstep] in Hs. rewrite (goto_some _ _ _ s HG2) in Hs. injection Hs as <-.
    destruct (while_back c b0 IHb _ _ _ _ _ _ _ _ _ _ E HC1 HGq HG2 HR)
      as (s1 & o1 & N1 & c1 & HN1 & HX & Ho & Hg1 & HR1).
    destruct (then_back r IH _ _ _ _ _ _ _ _ s1 o1 _ _ _ E0 HC2 HGp (Hg1 lx) HR1)
      as (s' & out & N' & c' & HN & HX' & Hg & HR').
    exists s', out, N', c'. repeat split; [lia| |exact Hg|exact HR'].
    eapply R_while; eauto.
  - destruct lx as [l|]; [|discriminate]. okbind H. injection H as <- <-.
    apply contains_cons in HG. destruct HG as [HG1 _].
    destruct (same_cur _ _ _ _ _ Hf HG1) as [-> ->].
    apply split_reaches in HR; [|discriminate]. destruct HR as (m & c' & -> & Hs & HR).
    exists s, Breaking, m, c'. repeat split; [lia|constructor|exact Hs|exact HR].
  - okbind H. injection H as <- <-.
    apply contains_cons in HG. destruct HG as [HG1 _].
    destruct (same_cur _ _ _ _ _ Hf HG1) as [-> ->].
    apply split_reaches in HR; [|discriminate]. destruct HR as (m & c' & -> & Hs & HR).
    exists s, Returning, m, c'. repeat split; [lia|constructor|exact Hs|exact HR].
  - destruct HC as [-> ->]. cbn in H. injection H as <- <-.
    apply contains_cons in HG. destruct HG as [HG _].
    destruct (same_cur _ _ _ _ _ Hf HG) as [-> ->].
    apply split_reaches in HR; [|discriminate]. destruct HR as (m & c' & -> & Hs & HR).
    exists s, Normal, m, c'. repeat split; [lia|constructor|exact Hs|exact HR].
Qed.
End Run.

(** ** The blocks have different numbers *)

Definition fresh_ids (cur n n' : nat) (bl : list (nat * blk)) : Prop :=
  (n <= n')%nat /\ NoDup (map fst bl) /\
  forall i, In i (map fst bl) -> i = cur \/ (n <= i < n')%nat.

Lemma NoDup_app (A : Type) (a b : list A) :
  NoDup a -> NoDup b -> (forall x, In x a -> ~ In x b) -> NoDup (a ++ b).
Proof.
  induction a as [|x a IH]; intros Ha Hb Hd; [exact Hb|].
  inversion Ha; subst. cbn. constructor.
  - rewrite in_app_iff. intros [H|H]; [auto|]. now apply (Hd x); [left|].
  - apply IH; auto. intros y Hy. apply Hd. now right.
Qed.

Ltac ids := repeat match goal with
  | H : In _ (map fst (_ ++ _)) |- _ => rewrite map_app in H
  | H : In _ (_ ++ _) |- _ => apply in_app_or in H; destruct H
  | H : In _ (_ :: _) |- _ => destruct H
  | H : In ?i (map fst ?l), F : forall i, In i (map fst ?l) -> _ |- _ =>
      apply F in H
  end; try lia.

Lemma conv_ids : forall o cur pre tl lx rx drop n bl n',
  conv o cur pre tl lx rx drop n = Ok (bl, n') -> (cur < n)%nat -> fresh_ids cur n n' bl.
Proof.
  induction o as [|x e r IH|k e r IH|c th IHt has el IHe r IH|k hi b IHb st r IH
                 |c b IHb r IH|r IH|r IH|r IH];
    intros cur pre tl lx rx drop n bl n' H HL; cbn [conv] in H.
  - injection H as <- <-. split; [lia|]. split.
    + constructor; [intros []|constructor].
    + intros i [<-|[]]. now left.
  - eauto.
  - eauto.
  - destruct has; okbind H; okbind H; injection H as <- <-.
    + apply IHe in E; [|lia]. apply IH in E0; [|destruct E as (? & _); lia].
      destruct E as (L1 & D1 & F1). destruct E0 as (L2 & D2 & F2).
      split; [lia|]. cbn [map fst]. rewrite map_app. split.
      * constructor.
        { intros Hi. ids. }
        constructor.
        { intros Hi. ids. }
        apply NoDup_app; [exact D1|exact D2|]. intros i Hi Hi'. ids.
      * intros i Hi. ids.
    + apply IHt in E; [|lia]. apply IH in E0; [|destruct E as (? & _); lia].
      destruct E as (L1 & D1 & F1). destruct E0 as (L2 & D2 & F2).
      split; [lia|]. cbn [map fst]. rewrite map_app. split.
      * constructor.
        { intros Hi. ids. }
        apply NoDup_app; [exact D1|exact D2|]. intros i Hi Hi'. ids.
      * intros i Hi. ids.
  - okbind H; okbind H; injection H as <- <-.
    apply IHb in E; [|lia]. apply IH in E0; [|destruct E as (? & _); lia].
    destruct E as (L1 & D1 & F1). destruct E0 as (L2 & D2 & F2).
    split; [lia|]. cbn [map fst]. rewrite map_app. split.
    + constructor; [intros Hi; ids|]. constructor; [intros Hi; ids|].
      constructor; [intros Hi; ids|].
      apply NoDup_app; [exact D1|exact D2|]. intros i Hi Hi'. ids.
    + intros i Hi. ids.
  - okbind H; okbind H; injection H as <- <-.
    apply IHb in E; [|lia]. apply IH in E0; [|destruct E as (? & _); lia].
    destruct E as (L1 & D1 & F1). destruct E0 as (L2 & D2 & F2).
    split; [lia|]. cbn [map fst]. rewrite map_app. split.
    + constructor; [intros Hi; ids|]. constructor; [intros Hi; ids|].
      apply NoDup_app; [exact D1|exact D2|]. intros i Hi Hi'. ids.
    + intros i Hi. ids.
  - destruct lx; [|discriminate]. okbind H; injection H as <- <-.
    apply IH in E; [|lia]. destruct E as (L1 & D1 & F1).
    split; [lia|]. cbn [map fst]. split.
    + constructor; [intros Hi; ids|exact D1].
    + intros i Hi. ids.
  - okbind H; injection H as <- <-.
    apply IH in E; [|lia]. destruct E as (L1 & D1 & F1).
    split; [lia|]. cbn [map fst]. split.
    + constructor; [intros Hi; ids|exact D1].
    + intros i Hi. ids.
  - destruct (drop && match r with ONil => true | _ => false end); eauto.
Qed.

Lemma nodup_find : forall g i b, NoDup (map fst g) -> In (i, b) g -> find_blk g i = Some b.
Proof.
  induction g as [|[j x] g IH]; intros i b HN Hi; [destruct Hi|].
  cbn [map fst] in HN. inversion HN; subst. cbn [find_blk].
  destruct Hi as [E|Hi].
  - injection E as -> ->. now rewrite Nat.eqb_refl.
  - destruct (Nat.eqb_spec i j) as [->|_]; [|now apply IH].
    exfalso. apply H1. apply in_map_iff. exists (j, b). auto.
Qed.

(** ** No operation is left behind *)

Definition clean (bl : list (nat * blk)) : Prop :=
  forall i is t, In (i, (is, t)) bl -> forallb converted is = true.

Lemma raw_clean : forall o, only_sets o -> forallb converted (raw o) = true.
Proof. induction o; cbn; intros H; try contradiction; auto. Qed.

Lemma clean_cons i is t bl : forallb converted is = true -> clean bl -> clean ((i, (is, t)) :: bl).
Proof. intros H HC j is' t' [E|Hi]; [injection E as <- <- <-; exact H|eauto]. Qed.

Lemma clean_app a b : clean a -> clean b -> clean (a ++ b).
Proof. intros Ha Hb j is t Hi. apply in_app_or in Hi. destruct Hi; eauto. Qed.

Lemma conv_clean : forall o cur pre tl lx rx drop n bl n',
  conv o cur pre tl lx rx drop n = Ok (bl, n') -> covered_ops (lp_of lx) drop o ->
  forallb converted pre = true -> clean bl.
Proof.
  induction o as [|x e r IH|k e r IH|c th IHt has el IHe r IH|k hi b IHb st r IH
                 |c b IHb r IH|r IH|r IH|r IH];
    intros cur pre tl lx rx drop n bl n' H HC HP; cbn [conv covered_ops] in H, HC.
  - injection H as <- <-. apply clean_cons; [exact HP|]. intros ? ? ? [].
  - eapply IH; eauto. rewrite forallb_app, HP. reflexivity.
  - eapply IH; eauto. rewrite forallb_app, HP. reflexivity.
  - destruct HC as [HC1 HC2]. destruct has; okbind H; okbind H; injection H as <- <-.
    + destruct HC1 as [HCt HCe].
      apply clean_cons; [exact HP|]. apply clean_cons; [now apply raw_clean|].
      apply clean_app; eauto.
    + apply clean_cons; [exact HP|]. apply clean_app; eauto.
  - destruct HC as [HC1 HC2]. okbind H; okbind H; injection H as <- <-.
    apply clean_cons; [exact HP|]. apply clean_cons; [reflexivity|].
    apply clean_cons; [reflexivity|]. apply clean_app; [eapply IHb|eapply IH]; eauto.
  - destruct HC as [HC1 HC2]. okbind H; okbind H; injection H as <- <-.
    apply clean_cons; [exact HP|]. apply clean_cons; [reflexivity|].
    apply clean_app; [eapply IHb|eapply IH]; eauto.
  - destruct HC as [HC1 HC2]. destruct lx; [|discriminate]. okbind H; injection H as <- <-.
    apply clean_cons; [exact HP|]. eapply IH; eauto.
  - okbind H; injection H as <- <-. apply clean_cons; [exact HP|]. eapply IH; eauto.
  - destruct HC as [-> ->]. cbn in H. injection H as <- <-.
    apply clean_cons; [exact HP|]. intros ? ? ? [].
Qed.

(** ** The sections of a function *)

Lemma algs_ok : forall algs cur n, covered_algs algs -> (cur < n)%nat ->
  exists bl n', conv_algs algs cur 1 n = Ok bl /\ (n <= n')%nat /\ clean bl /\
    NoDup (map fst bl) /\ forall i, In i (map fst bl) -> i = cur \/ (n <= i < n')%nat.
Proof.
  induction algs as [|a rest IH]; intros cur n HC HL.
  - exists [], n. cbn. repeat split; [lia|intros ? ? ? []|constructor|intros ? []].
  - inversion HC; subst. cbn [conv_algs]. destruct rest as [|a' rest].
    + destruct (conv_ok a cur [] (TBr 1) None 1 false n H1) as (bl & n' & E).
      rewrite E. cbn [bind fst]. exists bl, n'.
      destruct (conv_ids _ _ _ _ _ _ _ _ _ _ E HL) as (F1 & F2 & F3).
      pose proof (conv_clean _ _ _ _ _ _ _ _ _ _ E H1 eq_refl). auto.
    + destruct (conv_ok a cur [] (TBr n) None 1 false (S n) H1) as (bl & n' & E).
      rewrite E. cbn [bind fst snd].
      destruct (conv_ids _ _ _ _ _ _ _ _ _ _ E ltac:(lia)) as (F1 & F2 & F3).
      pose proof (conv_clean _ _ _ _ _ _ _ _ _ _ E H1 eq_refl) as F4.
      destruct (IH n n' H2 ltac:(lia)) as (p & n2 & E2 & L2 & C2 & D2 & I2).
      rewrite E2. cbn [bind]. exists (bl ++ p), n2. split; [reflexivity|]. split; [lia|].
      split; [now apply clean_app|]. rewrite map_app. split.
      * apply NoDup_app; auto. intros i Hi Hi'. apply F3 in Hi. apply I2 in Hi'. lia.
      * intros i Hi. apply in_app_or in Hi. destruct Hi as [Hi|Hi];
          [apply F3 in Hi|apply I2 in Hi]; lia.
Qed.

Section Algs.
Variable g : list (nat * blk).
Hypothesis exit_blk : find_blk g 1 = Some ([], TRet).

Lemma exit_goto s : goto g 1 s = Some (([], TRet), s).
Proof. now apply goto_some. Qed.

Lemma algs_forward : forall algs s sf, run_algs s algs sf ->
  forall cur n bl, covered_algs algs -> conv_algs algs cur 1 n = Ok bl -> contains g bl ->
  algs <> [] ->
  exists c m, goto g cur s = Some c /\ reaches g m c sf.
Proof.
  induction 1 as [s|s a l s1 s' HR HA IH|s a l s1 HR]; intros cur n bl HC H HG Hne.
  - congruence.
  - inversion HC; subst. cbn [conv_algs] in H. destruct l as [|a' l].
    + okbind H. injection H as <-. inversion HA; subst.
      destruct (proj1 (forward g) _ _ _ _ HR _ _ _ _ _ _ _ _ _ _ E H2 HG (exit_goto s'))
        as (mid & t & Hf & HS).
      destruct (steps_reaches g _ _ 0 s' HS eq_refl) as [m Hm].
      exists ((mid, t), s), m. split; [apply goto_some; exact Hf|exact Hm].
    + okbind H. apply bind_ok in H. destruct H as (p & E2 & H). injection H as <-.
      apply contains_app in HG. destruct HG as [HG1 HG2].
      destruct (IH _ _ _ H3 E2 HG2 ltac:(discriminate)) as (c & m & Hc & HRc).
      destruct (proj1 (forward g) _ _ _ _ HR _ _ _ _ _ _ _ _ _ _ E H2 HG1 Hc)
        as (mid & t & Hf & HS).
      destruct (steps_reaches g _ _ _ _ HS HRc) as [m' Hm].
      exists ((mid, t), s), m'. split; [apply goto_some; exact Hf|exact Hm].
  - inversion HC; subst. cbn [conv_algs] in H. destruct l as [|a' l].
    + okbind H. injection H as <-.
      destruct (proj1 (forward g) _ _ _ _ HR _ _ _ _ _ _ _ _ _ _ E H2 HG (exit_goto s1))
        as (mid & t & Hf & HS).
      destruct (steps_reaches g _ _ 0 s1 HS eq_refl) as [m Hm].
      exists ((mid, t), s), m. split; [apply goto_some; exact Hf|exact Hm].
    + okbind H. apply bind_ok in H. destruct H as (p & E2 & H). injection H as <-.
      apply contains_app in HG. destruct HG as [HG1 HG2].
      destruct (proj1 (forward g) _ _ _ _ HR _ _ _ _ _ _ _ _ _ _ E H2 HG1 (exit_goto s1))
        as (mid & t & Hf & HS).
      destruct (steps_reaches g _ _ 0 s1 HS eq_refl) as [m Hm].
      exists ((mid, t), s), m. split; [apply goto_some; exact Hf|exact Hm].
Qed.

Lemma exit_reaches N s c sf : goto g 1 s = Some c -> reaches g N c sf -> s = sf.
Proof.
  rewrite exit_goto. intros [= <-]. destruct N; cbn [reaches].
  - now intros [= ->].
  - intros (c' & H & _). discriminate H.
Qed.

(** No [break] leaves a section. *)
Lemma no_break : 
  (forall s o s' out, run_ops s o s' out -> forall fb, covered_ops false fb o -> out <> Breaking) /\
  (forall s o1 r s' out, run_then s o1 r s' out -> forall fb, covered_ops false fb r ->
     o1 <> Breaking -> out <> Breaking) /\
  (forall s k hi body st s' out, run_for s k hi body st s' out -> out <> Breaking) /\
  (forall s c body s' out, run_while s c body s' out -> out <> Breaking).
Proof.
  apply run_mut; intros; cbn [covered_ops] in *; try discriminate; try congruence; eauto.
  - destruct H1 as [H1 H2]. eapply H0; [exact H2|]. destruct has.
    + destruct H1 as [H1 H3]. destruct (v =? 0).
      * eapply H; eauto.
      * destruct (raw_runs g TRet _ _ _ _ H1 r0) as [-> _]. discriminate.
    + destruct (v =? 0); [eapply (H false); cbn; auto|eapply H; eauto].
  - destruct H1 as [H1 H2]. eapply H0; eauto.
  - destruct H1 as [H1 H2]. eapply H0; eauto.
  - destruct H as [H _]. discriminate.
Qed.

Lemma algs_backward : forall algs cur n bl s sf c N,
  covered_algs algs -> conv_algs algs cur 1 n = Ok bl -> contains g bl -> algs <> [] ->
  goto g cur s = Some c -> reaches g N c sf -> run_algs s algs sf.
Proof.
  induction algs as [|a l IH]; intros cur n bl s sf c N HC H HG Hne Hc HR; [congruence|].
  inversion HC; subst. cbn [conv_algs] in H. destruct l as [|a' l].
  - okbind H. injection H as <-.
    destruct (conv_cur g _ _ _ _ _ _ _ _ _ _ E HG) as (mid & t & Hf). cbn [app] in Hf.
    rewrite (goto_some g _ _ _ s Hf) in Hc. injection Hc as <-.
    destruct (backward g a _ _ _ _ _ _ _ _ _ mid t s sf N E H2 HG Hf HR)
      as (s1 & o1 & N1 & c1 & HN & HX & Hg & HR1).
    destruct o1; cbn [target] in Hg.
    + rewrite <- (exit_reaches _ _ _ _ Hg HR1). eapply A_next; [exact HX|constructor].
    + exfalso. now apply (proj1 no_break _ _ _ _ HX false H2).
    + rewrite <- (exit_reaches _ _ _ _ Hg HR1). apply A_return. exact HX.
  - okbind H. apply bind_ok in H. destruct H as (p & E2 & H). injection H as <-.
    apply contains_app in HG. destruct HG as [HG1 HG2].
    destruct (conv_cur g _ _ _ _ _ _ _ _ _ _ E HG1) as (mid & t & Hf). cbn [app] in Hf.
    rewrite (goto_some g _ _ _ s Hf) in Hc. injection Hc as <-.
    destruct (backward g a _ _ _ _ _ _ _ _ _ mid t s sf N E H2 HG1 Hf HR)
      as (s1 & o1 & N1 & c1 & HN & HX & Hg & HR1).
    destruct o1; cbn [target] in Hg.
    + eapply A_next; [exact HX|]. eapply IH; eauto. discriminate.
    + exfalso. now apply (proj1 no_break _ _ _ _ HX false H2).
    + rewrite <- (exit_reaches _ _ _ _ Hg HR1). apply A_return. exact HX.
Qed.
End Algs.

Lemma clean_legal g : clean g -> legal g = true.
Proof.
  intros HC. unfold legal. apply forallb_forall. intros [i [is t]] Hi. cbn [fst snd].
  rewrite (HC _ _ _ Hi). apply orb_true_r.
Qed.

(** The graph of a function, as a whole. *)
Theorem convert_correct algs : covered_algs algs ->
  exists g b, convert algs = Ok g /\ legal g = true /\ find_blk g 0 = Some b /\
    forall s sf, run_algs s algs sf <-> exists fuel, crun g fuel (b, s) = Ok sf.
Proof.
  intros HC. destruct algs as [|a l].
  - eexists _, _. split; [reflexivity|]. split; [reflexivity|]. split; [reflexivity|].
    intros s sf. split.
    + intros H. inversion H; subst. exists 2%nat. reflexivity.
    + intros [fuel H]. destruct fuel as [|[|fuel]]; [discriminate|discriminate|].
      cbn in H. injection H as <-. constructor.
  - destruct (algs_ok (a :: l) 2 3 HC ltac:(lia)) as (bl & n' & E & L & HCl & HN & HI).
    unfold convert. rewrite E. cbn [bind].
    set (g := (0%nat, ([], TBr 2)) :: (1%nat, ([], TRet)) :: bl).
    exists g, ([], TBr 2). split; [reflexivity|].
    assert (HNg : NoDup (map fst g)).
    { cbn [g map fst]. constructor.
      - intros [Hi|Hi]; [discriminate|]. apply HI in Hi. lia.
      - constructor; [|exact HN]. intros Hi. apply HI in Hi. lia. }
    assert (Hcon : contains g bl).
    { intros i b Hi. apply nodup_find; [exact HNg|]. cbn. auto. }
    split.
    { apply clean_legal. apply clean_cons; [reflexivity|]. apply clean_cons; [reflexivity|exact HCl]. }
    split; [reflexivity|].
    intros s sf. split.
    + intros HR.
      destruct (algs_forward g eq_refl _ _ _ HR _ _ _ HC E Hcon ltac:(discriminate)) as (c & m & Hc & Hm).
      apply (reaches_crun g (S m)). cbn [reaches]. exists c. split; [exact Hc|exact Hm].
    + intros [fuel H]. apply crun_reaches in H. destruct H as [m Hm].
      apply split_reaches in Hm; [|discriminate]. destruct Hm as (m' & c & -> & Hs & Hm).
      eapply algs_backward; eauto; [reflexivity|discriminate].
Qed.
