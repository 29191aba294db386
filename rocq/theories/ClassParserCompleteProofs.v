(** The parser reads every class of the supported grammar, with its tree, and when it ends. *)
From Coq Require Import ZArith QArith List Bool String Lia.
From Verif Require Import Result LexerModel LexerProofs ParserModel ParserSpec ParserProofs ParserCompleteProofs
  BlockParserModel BlockParserSpec BlockParserProofs ClassParserModel ClassParserSpec ClassParserProofs.
Import ListNotations.
Local Open Scope nat_scope.
Local Open Scope list_scope.

Ltac lens := cbn [List.length app] in *; len.

(** * Modifications *)
Definition ends_modif (rest : list tk) : Prop :=
  stop 8 rest /\ match rest with KAssign :: _ => False | _ => True end.
Definition ends_argument (rest : list tk) : Prop :=
  match rest with KComma :: _ | KRPar :: _ => True | _ => False end.
Lemma ends_argument_modif : forall rest, ends_argument rest -> ends_modif rest.
Proof. intros [|t r] H; [destruct H|]. destruct t; try destruct H. split; cbn; auto. split; cbn; auto. Qed.

Section ModificationComplete.
  Variable M : list tk -> pres modif.
  Variables n c : nat.
  Variable G : list tk -> modif -> Prop.
  Hypothesis CM : complete M G ends_modif c.
  Hypothesis BM : forall ts m, G ts m -> head_is opens_modif ts = true.
  Hypothesis Hn : c < n.
  Lemma c_m_element : forall each final s ts x rest,
    (ts = [KIdent s] /\ x = Elem each final s None \/
     exists d m, ts = KIdent s :: d /\ x = Elem each final s (Some m) /\ G d m) ->
    ends_argument rest -> List.length (ts ++ rest) < S c ->
    m_element M each final (ts ++ rest) = ret x rest.
  Proof.
    intros each final s ts x rest [[-> ->]|(d & m & -> & -> & D)] Hok Hc.
    - destruct rest as [|t r]; [destruct Hok|]. destruct t; try destruct Hok; reflexivity.
    - cbn [app m_element]. pose proof (BM _ _ D) as O. destruct d as [|t d]; [discriminate|].
      assert (Q : M ((t :: d) ++ rest) = ret m rest) by (apply CM; auto; [now apply ends_argument_modif|cbn in *; lia]).
      cbn [app head_is] in *. rewrite O, Q. reflexivity.
  Qed.
  Lemma c_m_argument : complete (m_argument M) (g_element false G) ends_argument (S c).
  Proof.
    intros ts x rest D Hok Hc.
    assert (exists a each b final s u, ts = a ++ b ++ u /\ g_flag WEach a each /\ g_flag WFinal b final /\
      (u = [KIdent s] /\ x = Elem each final s None \/
       exists d m, u = KIdent s :: d /\ x = Elem each final s (Some m) /\ G d m))
      as (a & each & b & final & s & u & -> & Da & Db & W).
    { destruct D as [a each b final s c' Da Db _ [->|Ab]|a each b final s d m c' Da Db Dm _ [->|Ab]]; try discriminate;
        rewrite ?app_nil_r.
      - exists a, each, b, final, s, [KIdent s]. auto 10.
      - exists a, each, b, final, s, (KIdent s :: d). eauto 15. }
    assert (exists r, u = KIdent s :: r) as (r & Eu) by (destruct W as [[-> _]|(d & m & -> & _)]; eauto).
    assert (Q : m_element M each final (u ++ rest) = ret x rest) by (eapply c_m_element; eauto; len).
    subst u. destruct Da, Db; exact Q.
  Qed.
  Lemma c_m_class : forall ts l, g_class_modif false G ts l -> forall rest, List.length (ts ++ rest) < S (S c) ->
    m_class M n (ts ++ rest) = ret l rest.
  Proof.
    intros ts l D rest Hc. destruct D as [Ab|ts l D]; [discriminate|]. cbn [app m_class]. assoc.
    rewrite (sep_loop_complete _ _ _ _ KComma _ _ c_m_argument) with (l := l); auto; try exact I; cbn in Hc; try lia.
    intros r. exact I.
  Qed.
End ModificationComplete.
Lemma class_modif_starts : forall fl G ts l, g_class_modif fl G ts l -> exists r, ts = KLPar :: r.
Proof. intros fl G ts l D. destruct D; eauto. Qed.
Lemma modif_starts : forall d ts m, g_modif_depth false false d ts m -> head_is opens_modif ts = true.
Proof.
  intros d ts m D. destruct d; [destruct D|]. cbn [g_modif_depth] in D. destruct D as [| |ts l D|ts l ts' e D _]; auto;
    destruct (class_modif_starts _ _ _ _ D) as (r & ->); reflexivity.
Qed.
Theorem modif_complete : forall d n, complete (modif_fuel n) (g_modif_depth false false d) ends_modif n.
Proof.
  induction d; intros n ts x rest D Hok Hn; [destruct D|]. destruct n; [lia|].
  cbn [g_modif_depth] in D. cbn [modif_fuel]. unfold m_modification.
  pose proof (IHd n) as CI. pose proof (modif_starts d) as BI. destruct Hok as [Hok Hok'].
  destruct D as [ts e D|ts e D|ts l D|ts l ts' e D De].
  - cbn [app]. rewrite (parse_expression_reads _ _ _ D Hok). reflexivity.
  - cbn [app]. rewrite (parse_expression_reads _ _ _ D Hok). reflexivity.
  - assert (Q : m_class (modif_fuel n) (S n) (ts ++ rest) = ret l rest).
    { apply (c_m_class _ _ n _ CI BI); auto; lia. }
    destruct (class_modif_starts _ _ _ _ D) as (r & ->). cbn [app] in *. rewrite Q, ptry_ret.
    destruct rest as [|t rest]; auto. destruct t; auto. destruct Hok'.
  - assoc. assert (Q : m_class (modif_fuel n) (S n) (ts ++ KAssign :: ts' ++ rest) = ret l (KAssign :: ts' ++ rest)).
    { apply (c_m_class _ _ n _ CI BI); auto; lia. }
    destruct (class_modif_starts _ _ _ _ D) as (r & ->). cbn [app] in *. rewrite Q, ptry_ret.
    rewrite (parse_expression_reads _ _ _ De Hok). reflexivity.
Qed.
Lemma g_modif_starts : forall ts m, g_modif false false ts m -> head_is opens_modif ts = true.
Proof. intros ts m [d D]. eapply modif_starts; eauto. Qed.
Lemma parse_modification_complete : forall b, complete parse_modification (g_modif false false) ends_modif b.
Proof. intros b ts m rest [d D] Hok _. apply (modif_complete d); auto; lia. Qed.
Lemma parse_annotation_complete : forall ts l rest, g_annotation false false ts (Some l) ->
  parse_annotation (ts ++ rest) = ret l rest.
Proof.
  intros ts l rest D. inversion D as [|ts' l' D']. subst. cbn [app parse_annotation].
  unfold parse_class_modification, rounds.
  apply (c_m_class _ _ (S (List.length (ts' ++ rest))) _ (parse_modification_complete _) g_modif_starts); auto; lia.
Qed.

(** * Components *)
Lemma dimension_complete : forall b, complete t_dimension (g_dim false false) (fun r => match r with KComma :: _ | KRSq :: _ => True | _ => False end) b.
Proof.
  intros b ts x rest D Hok _. destruct D as [|z|ts e D N]; try reflexivity.
  destruct N as [N|[Ab _]]; [|discriminate].
  assert (Q : parse_expression (ts ++ rest) = ret e rest).
  { apply parse_expression_reads; auto. destruct rest as [|t r]; [destruct Hok|]. destruct t; try destruct Hok; cbn; lia. }
  pose proof (g_expr_starts _ _ D) as S. destruct ts as [|t ts]; [destruct S|]. unfold t_dimension. cbn [app] in *.
  rewrite Q. destruct t; try reflexivity; [|cbn in S; lia]. exfalso. eapply N. reflexivity.
Qed.
Lemma dimensions_complete : forall ts ds rest, g_dims false false ts ds -> (forall r, rest <> KLSq :: r) ->
  t_dimensions (ts ++ rest) = ret ds rest.
Proof.
  intros ts ds rest D N. destruct D as [|ts l D].
  - cbn [app]. unfold t_dimensions. destruct rest as [|t r]; auto. destruct t; auto. exfalso. eapply N. reflexivity.
  - cbn [app t_dimensions]. assoc.
    rewrite (sep_loop_complete _ _ _ _ KComma _ _ (dimension_complete (rounds (ts ++ KRSq :: rest)))) with (l := l); auto;
      try exact I; unfold rounds; try lia.
Qed.
Lemma path_complete : forall ts l, separated g_ident KDot ts l -> exists s path u, l = s :: path /\ ts = KIdent s :: u /\
  forall n acc rest, (forall r, rest <> KDot :: r) -> List.length u < n -> t_path n acc (u ++ rest) = ret (acc ++ path) rest.
Proof.
  intros ts l D. induction D as [ts x D|ts x ts' l D Ds IH].
  - destruct D. exists s, [], []. split; auto. split; auto. intros n acc rest N Hn. rewrite app_nil_r. cbn [app].
    destruct n; [lia|]. destruct rest as [|t r]; auto. destruct t; auto. exfalso. eapply N. reflexivity.
  - destruct D. destruct IH as (s' & path & u & -> & -> & IH). exists s, (s' :: path), (KDot :: KIdent s' :: u).
    split; auto. split; auto. intros n acc rest N Hn. cbn [List.length] in Hn. destruct n as [|n]; [lia|]. cbn [app t_path].
    rewrite IH; auto; [|lia]. now rewrite <- app_assoc.
Qed.
Lemma builtin_some : forall s v, In (s, v) predefined -> builtin s = Some v.
Proof.
  intros s v H. cbn in H. repeat (destruct H as [H|H]; [injection H as <- <-; reflexivity|]). destruct H.
Qed.
Lemma builtin_none : forall s, ~ In s (map fst predefined) -> builtin s = None.
Proof.
  intros s H. pose proof (builtin_spec s) as B. destruct (builtin s) as [v|]; auto. exfalso. apply H.
  change s with (fst (s, v)). now apply in_map.
Qed.
Lemma type_complete : forall d t e ds s rest, g_name d t -> g_dims false false e ds ->
  t_type (d ++ e ++ KIdent s :: rest) = ret (t, ds) (KIdent s :: rest).
Proof.
  intros d t e ds s rest Dd De.
  assert (Q : t_dimensions (e ++ KIdent s :: rest) = ret ds (KIdent s :: rest)) by (apply dimensions_complete; auto; discriminate).
  assert (N : forall r, e ++ KIdent s :: rest <> KDot :: r) by (destruct De; discriminate).
  set (r2 := e ++ KIdent s :: rest) in *. clearbody r2. unfold t_type.
  destruct Dd as [a g s' v Da Hs|a g b s' path Da Db Hs].
  - apply builtin_some in Hs. destruct Da; cbn [app]; rewrite Hs, ptry_ret, Q; reflexivity.
  - apply builtin_none in Hs. destruct (path_complete _ _ Db) as (s1 & p1 & u & Eq & -> & P).
    injection Eq as <- <-.
    assert (P1 : t_path (rounds (u ++ r2)) [s'] (u ++ r2) = ret (s' :: path) r2).
    { rewrite P; auto. unfold rounds. rewrite app_length. lia. }
    destruct Da; cbn [app]; rewrite Hs, P1, !ptry_ret, Q; reflexivity.
Qed.
Lemma element_complete : forall public b,
  complete (t_element public) (g_component false false public) (fun r => match r with KSemi :: _ => True | _ => False end) b.
Proof.
  intros public b' ts x rest D Hok _. destruct rest as [|t rest]; [destruct Hok|]. destruct t; try destruct Hok.
  destruct D as [a fin b v c k d t e ds s f m g h an Da Db Dc Dd De Df Dg Dh]. unfold t_element. assoc.
  assert (exists w d', d = w :: d' /\ (w = KDot \/ exists s, w = KIdent s)) as (w & d' & Ed & Hw).
  { destruct Dd as [? g' ? ? Da' _|? g' b0 ? ? Da' Db' _]; destruct Da'; cbn; eauto 10.
    destruct (path_complete _ _ Db') as (s1 & p1 & u & _ & -> & _). eauto 10. }
  set (tl := d ++ e ++ KIdent s :: f ++ g ++ h ++ KSemi :: rest) in *.
  assert (Ht : exists tl', tl = w :: tl') by (subst tl d; cbn; eauto).
  assert (Qt : t_type tl = ret (t, ds) (KIdent s :: f ++ g ++ h ++ KSemi :: rest)) by (now apply type_complete).
  clearbody tl. destruct Ht as (tl' & ->). clear Ed.
  assert (T0 : take WFinal (a ++ b ++ c ++ w :: tl') = (fin, b ++ c ++ w :: tl')).
  { destruct Da; [|reflexivity]. destruct Hw as [->|[s' ->]]; destruct Db, Dc; reflexivity. }
  assert (T1 : t_variability (b ++ c ++ w :: tl') = (v, c ++ w :: tl')).
  { destruct Hw as [->|[s' ->]]; destruct Db, Dc; reflexivity. }
  assert (T2 : t_causality (c ++ w :: tl') = (k, w :: tl')).
  { destruct Hw as [->|[s' ->]]; destruct Dc; reflexivity. }
  rewrite T0, T1, T2, Qt, ptry_ret.
  assert (Qh : ptry (match h ++ KSemi :: rest with
      | KWord WAnnotation :: _ => ptry (parse_annotation (h ++ KSemi :: rest)) (fun _ r7 => ret tt r7)
      | _ => ret tt (h ++ KSemi :: rest) end) (fun _ r7 => ret (mkMember s (fst (t, ds)) (snd (t, ds)) v k public m) r7) =
      ret (mkMember s t ds v k public m) (KSemi :: rest)).
  { destruct Dh as [|h l Dh]; [reflexivity|]. rewrite (parse_annotation_complete _ l (KSemi :: rest)); [reflexivity|].
    now constructor. }
  assert (Hh : match h ++ KSemi :: rest with KSemi :: _ | KWord WAnnotation :: _ => True | _ => False end).
  { destruct Dh; exact I. }
  set (th := h ++ KSemi :: rest) in *. clearbody th.
  assert (Hg : skip_string (g ++ th) = th).
  { destruct Dg; [|reflexivity]. destruct th as [|t' th]; auto. destruct t'; try destruct Hh; reflexivity. }
  assert (Hm : stop 8 (g ++ th) /\ match g ++ th with KStr _ :: _ | KSemi :: _ | KWord WAnnotation :: _ => True | _ => False end).
  { destruct Dg; [|split; cbn; auto]. destruct th as [|t' th]; [destruct Hh|]. cbn [app].
    destruct t'; try destruct Hh; (split; [cbn; auto|auto]). }
  set (tg := g ++ th) in *. clearbody tg. destruct Hm as [Hm Hm'].
  assert (Qf : match f ++ tg with
      | KLPar :: _ | KAssign :: _ => ptry (parse_modification (f ++ tg)) (fun m r5 => ret (Some m) r5)
      | _ => ret None (f ++ tg) end = ret m tg).
  { destruct Df as [|f m Df N].
    - cbn [app]. destruct tg as [|t' tg]; [reflexivity|]. destruct t'; try destruct Hm'; reflexivity.
    - destruct N as [Ab|N]; [discriminate|].
      rewrite (parse_modification_complete (S (List.length (f ++ tg))) _ _ _ Df); [| |lia].
      + apply g_modif_starts in Df. destruct f as [|t' f]; [discriminate|]. destruct t'; try discriminate; try reflexivity.
        exfalso. eapply N. reflexivity.
      + split; auto. destruct tg as [|t' tg]; auto. destruct t'; auto. }
  rewrite Qf, ptry_ret, Hg. exact Qh.
Qed.

(** * What comes after the sections *)
Lemma separated_commas : forall (ts : list tk) (l : list expr), separated (g_expr false false) KComma ts l ->
  forall n acc rest, List.length (ts ++ KRPar :: rest) < n ->
  external_args n acc (ts ++ KRPar :: rest) = ret (acc ++ l) (KRPar :: rest).
Proof.
  assert (Step : forall n acc ts e t r, g_expr false false ts e -> stop 8 (t :: r) ->
    external_args (S n) acc (ts ++ t :: r) = match t with
      | KRPar => external_args n (acc ++ [e]) (t :: r)
      | KComma => external_args n (acc ++ [e]) r
      | _ => Ok None end).
  { intros n acc ts e t r D S. pose proof (parse_expression_reads _ _ _ D S) as Q.
    apply g_expr_starts in D. destruct ts as [|t0 ts]; [destruct D|]. cbn [external_args app] in *. rewrite Q, ptry_ret.
    destruct t0; try (cbn in D; lia); destruct t; reflexivity. }
  intros ts l D. induction D as [ts x D|ts x ts' l D Ds IH]; intros n acc rest Hn.
  - destruct n as [|n]; [lia|]. rewrite (Step _ _ _ _ KRPar rest D); [|cbn; lia]. destruct n; [len|]. reflexivity.
  - assoc. destruct n as [|n]; [lia|]. rewrite (Step _ _ _ _ KComma _ D); [|cbn; lia].
    rewrite IH; [now rewrite <- app_assoc|len].
Qed.
Lemma external_call_complete : forall ts c rest, g_external_call false false ts (Some c) ->
  external_call_of (ts ++ rest) = ret c rest /\ match ts with KDot :: _ | KIdent _ :: _ => True | _ => False end.
Proof.
  intros ts c rest D. inversion D as [|a d s b l Dd Da]. subst.
  assert (Q : external_args (rounds (b ++ KRPar :: rest)) [] (b ++ KRPar :: rest) = ret l (KRPar :: rest)).
  { destruct Da as [|ts' l' Da|ts' l' Ab]; [reflexivity| |discriminate]. apply (separated_commas _ _ Da).
    unfold rounds. lia. }
  unfold external_call_of. destruct Dd as [|ts' e Dr].
  - cbn [app]. split; auto. assoc. rewrite ptry_ret, Q. reflexivity.
  - assoc. destruct (reference_starts _ _ _ Dr) as (t & u & Eq & Ht).
    split; [|subst ts'; destruct Ht as [->|[s' ->]]; exact I].
    pose proof (reference_complete _ _ (KAssign :: KIdent s :: KLPar :: b ++ KRPar :: rest) Dr I I) as R.
    rewrite R, ptry_ret.
    assert (N : match ts' ++ KAssign :: KIdent s :: KLPar :: b ++ KRPar :: rest with
      | KIdent _ :: KLPar :: _ => False | _ => True end).
    { remember (ts' ++ KAssign :: KIdent s :: KLPar :: b ++ KRPar :: rest) as tl eqn:E0. symmetry in E0.
      destruct tl as [|t0 l0]; [exact I|]. destruct t0; auto. destruct l0 as [|t1 l1]; auto. destruct t1; auto.
      clear - Dr E0. inversion Dr as [? ? Ds|? ? _ Ds]; subst; [|discriminate].
      destruct Ds as [? ? De|? ? ? ? De _]; destruct De as [|? ? ? Dss]; cbn in E0; try discriminate;
        destruct Dss; discriminate. }
    set (tl := ts' ++ KAssign :: KIdent s :: KLPar :: b ++ KRPar :: rest) in *. clearbody tl.
    assert (Qd : match tl with
      | KIdent _ :: KLPar :: _ => ret None tl
      | _ => ret (Some e) (KIdent s :: KLPar :: b ++ KRPar :: rest) end = ret (Some e) (KIdent s :: KLPar :: b ++ KRPar :: rest)).
    { destruct tl as [|t0 l0]; auto. destruct t0; auto. destruct l0 as [|t1 l1]; auto. destruct t1; auto. destruct N. }
    rewrite Qd, ptry_ret, Q. reflexivity.
Qed.
Lemma external_complete : forall ts x rest, g_external false false ts x ->
  (x = None -> forall r, rest <> KWord WExternal :: r) -> external_clause (ts ++ rest) = ret x rest.
Proof.
  intros ts x rest D N. destruct D as [|a l b c d an Da Db Dd].
  - cbn [app]. unfold external_clause. destruct rest as [|t r]; auto. destruct t; auto. destruct w; auto.
    exfalso. eapply N; reflexivity.
  - cbn [app external_clause]. assoc.
    assert (Qd : ptry (match d ++ KSemi :: rest with
            | KSemi :: _ => ret None (d ++ KSemi :: rest)
            | _ => ptry (parse_annotation (d ++ KSemi :: rest)) (fun a r3 => ret (Some a) r3)
            end) (fun a r3 =>
        match r3 with
        | KSemi :: r4 => ret (Some (mkExternal l c a)) r4
        | _ => Ok None
        end) = ret (Some (mkExternal l c an)) rest).
    { destruct Dd as [|d l' Dd]; [reflexivity|]. rewrite (parse_annotation_complete _ l' (KSemi :: rest)); [reflexivity|].
      now constructor. }
    assert (Hd : match d ++ KSemi :: rest with KSemi :: _ | KWord WAnnotation :: _ => True | _ => False end).
    { destruct Dd; exact I. }
    set (td := d ++ KSemi :: rest) in *. clearbody td.
    assert (Qb : match b ++ td with
            | KDot :: _ | KIdent _ :: _ => ptry (external_call_of (b ++ td)) (fun c r2 => ret (Some c) r2)
            | _ => ret None (b ++ td)
            end = ret c td).
    { destruct c as [c|].
      - destruct (external_call_complete _ _ td Db) as [Q Hb]. rewrite Q.
        destruct b as [|t b]; [destruct Hb|]. destruct t; try destruct Hb; reflexivity.
      - inversion Db. subst b. cbn [app]. destruct td as [|t td]; auto. destruct t; try destruct Hd; reflexivity. }
    assert (Hb : match b ++ td with KStr _ :: _ => False | _ => True end).
    { destruct c as [c|].
      - destruct (external_call_complete _ _ td Db) as [_ Hb]. destruct b as [|t b]; [destruct Hb|]. destruct t; try destruct Hb; exact I.
      - inversion Db. subst b. cbn [app]. destruct td as [|t td]; auto. destruct t; try destruct Hd; exact I. }
    set (tb := b ++ td) in *. clearbody tb.
    assert (Ea : match a ++ tb with KStr s :: r1 => (Some s, r1) | _ => (None, a ++ tb) end = (l, tb)).
    { destruct Da; [|reflexivity]. cbn [app]. destruct tb as [|t tb]; auto. destruct t; auto. destruct Hb. }
    rewrite Ea, Qb, ptry_ret. exact Qd.
Qed.
Lemma class_annotation_complete : forall ts x rest, g_class_annotation false false ts x ->
  (x = None -> forall r, rest <> KWord WAnnotation :: r) -> class_annotation (ts ++ rest) = ret x rest.
Proof.
  intros ts x rest D N. destruct D as [|ts l D].
  - cbn [app]. unfold class_annotation. destruct rest as [|t r]; auto. destruct t; auto. destruct w; auto.
    exfalso. eapply N; reflexivity.
  - assoc. unfold class_annotation. rewrite (parse_annotation_complete _ _ _ D).
    inversion D. subst. reflexivity.
Qed.
Lemma kind_complete : forall a k s rest, g_kind a k -> class_kind (a ++ KIdent s :: rest) = ret k (KIdent s :: rest).
Proof. intros a k s rest D. destruct D as [| | |a op Da|a op Da|a op Da|a op Da]; try reflexivity; destruct Da; reflexivity. Qed.
Lemma names_expr : forall a f, separated g_entry_name KDot a f -> g_expr false false a (XRef false f).
Proof.
  intros a f D. exists 1. apply gex_simple, gsi_one, gle_one, glt_one, glf_one, grl_one, gar_one, gt_one, gf_one.
  apply gpr_ref, gre_local. revert D. apply separated_mono. intros ts x De. destruct De. constructor.
Qed.
Lemma variable_expr : forall ts x, g_variable ts x -> g_expr false false ts x.
Proof. intros ts x D. destruct D. apply names_expr, sep_one. constructor. Qed.
Lemma der_vars_complete : forall ts l, separated g_variable KComma ts l -> forall n acc rest,
  List.length ts < n -> der_vars n acc (KComma :: ts ++ KRPar :: rest) = ret (acc ++ l) (KRPar :: rest).
Proof.
  intros ts l D. induction D as [ts x D|ts x ts' l D Ds IH]; intros n acc rest Hn; destruct n as [|n]; try lia; cbn [der_vars].
  - rewrite (parse_expression_reads _ _ _ (variable_expr _ _ D)); [|cbn; lia]. rewrite ptry_ret.
    destruct n; [|reflexivity]. destruct D. cbn in Hn. lia.
  - assoc. rewrite (parse_expression_reads _ _ _ (variable_expr _ _ D)); [|cbn; lia]. rewrite ptry_ret.
    rewrite IH; [now rewrite <- app_assoc|len].
Qed.
Lemma derivative_complete : forall p s b f l c rest, g_derivative false false b f l -> g_comment c ->
  derivative (CFunction p) s (KDer :: KLPar :: b ++ KRPar :: c ++ KSemi :: rest) = ret (PartialDer s f l) rest.
Proof.
  intros p s b f l c rest D Dc. destruct D as [a f b l Df Dl|a e Ab|a e b l Ab]; try discriminate.
  cbn [derivative]. assoc. rewrite (parse_expression_reads _ _ _ (names_expr _ _ Df)); [|cbn; lia]. rewrite ptry_ret.
  rewrite (der_vars_complete _ _ Dl); [|unfold rounds; cbn [List.length]; rewrite app_length; lia]. rewrite ptry_ret. destruct Dc; reflexivity.
Qed.

(** * The body of a class *)
Lemma parse_equation_complete : forall b, complete parse_equation (g_eqn false false) ends_equation b.
Proof. intros b ts x rest [d D] Hok _. apply (equation_complete d); auto. Qed.
Lemma parse_statement_complete : forall b, complete parse_statement (g_stmt false false) (stop 8) b.
Proof. intros b ts x rest [d D] Hok _. apply (statement_complete d); auto. Qed.
Lemma equation_stop_item : ends_item equation_stop.
Proof. intros [] H; try discriminate; reflexivity. Qed.
Lemma algorithm_stop_item : ends_item algorithm_stop.
Proof. intros [] H; try discriminate; reflexivity. Qed.
Lemma equation_section_complete : forall n i initial a l rest, g_flag WInitial i initial ->
  g_block (g_eqn false false) a l -> head_is equation_stop rest = true ->
  List.length (i ++ KWord WEquation :: a ++ rest) < n ->
  equation_section n (i ++ KWord WEquation :: a ++ rest) = ret (initial, l) rest.
Proof.
  intros n i initial a l rest Di Da Hr Hn.
  assert (OS : forall r, ends_equation (KSemi :: r)) by (intros r; split; cbn; auto).
  assert (BI : forall ts q, g_eqn false false ts q -> starts_item ts).
  { intros ts q [k D]. now apply (equation_starts k) in D. }
  assert (Q : block parse_equation equation_stop n [] (a ++ rest) = ret l rest).
  { apply (block_complete _ _ _ n (parse_equation_complete n) OS BI _ equation_stop_item _ _ Da); auto;
      len. }
  unfold equation_section. destruct Di; cbn [app take]; cbn; rewrite Q; reflexivity.
Qed.
Lemma algorithm_section_complete : forall n a l rest,
  g_block (g_stmt false false) a l -> head_is algorithm_stop rest = true ->
  List.length (KWord WAlgorithm :: a ++ rest) < n ->
  algorithm_section n (KWord WAlgorithm :: a ++ rest) = ret l rest.
Proof.
  intros n a l rest Da Hr Hn.
  assert (OS : forall r, stop 8 (KSemi :: r)) by (intros r; cbn; auto).
  assert (BI : forall ts q, g_stmt false false ts q -> starts_item ts).
  { intros ts q [k D]. now apply (statement_starts k) in D. }
  unfold algorithm_section.
  apply (block_complete _ _ _ n (parse_statement_complete n) OS BI _ algorithm_stop_item _ _ Da); auto; cbn in *; lia.
Qed.
Lemma component_starts : forall fl rx v a m, g_component fl rx v a m -> exists t r, a = t :: r /\
  match t with
  | KDot | KIdent _ | KWord (WFinal | WDiscrete | WParameter | WConstant | WInput | WOutput) => True
  | _ => False
  end.
Proof.
  intros fl rx v a m D. destruct D as [a fin b v' c k d t e ds s f m g h an Da Db Dc Dd].
  destruct Da; [|now (do 2 eexists; split; [reflexivity|exact I])]. destruct Db; try (now (do 2 eexists; split; [reflexivity|exact I])). destruct Dc; try (now (do 2 eexists; split; [reflexivity|exact I])). cbn [app].
  destruct Dd as [? g' ? ? Da' _|? g' b0 ? ? Da' Db' _]; destruct Da'; try (now (do 2 eexists; split; [reflexivity|exact I])).
  destruct (path_complete _ _ Db') as (s1 & p1 & u & _ & -> & _). now (do 2 eexists; split; [reflexivity|exact I]).
Qed.
Lemma elements_complete : forall v ts l, g_block (g_component false false v) ts l -> forall n acc rest,
  head_is element_stop rest = true -> List.length (ts ++ rest) < n ->
  block (t_element v) element_stop n acc (ts ++ rest) = ret (acc ++ l) rest.
Proof.
  intros v ts l D. induction D as [|a x b l D Ds IH]; intros n acc rest Hr Hn; (destruct n as [|n]; [lia|]).
  - cbn [app block]. rewrite Hr. now rewrite app_nil_r.
  - assoc. pose proof (element_complete v (S (List.length (a ++ KSemi :: b ++ rest))) _ _ (KSemi :: b ++ rest) D I
      (Nat.lt_succ_diag_r _)) as Q.
    cbn [block]. rewrite Q, ptry_ret, IH; auto; [|len].
    destruct (component_starts _ _ _ _ _ D) as (t & r & -> & Ht). cbn [app head_is].
    replace (element_stop t) with false; [now rewrite <- app_assoc|].
    destruct t; auto; try destruct Ht. destruct w; auto; destruct Ht.
Qed.

Section BodyComplete.
  Variable C : list tk -> pres cls.
  Variables n c0 : nat.
  Variable G : list tk -> cls -> Prop.
  Hypothesis CC : complete C G (fun _ => True) c0.

  (** The components that come first are read together. *)
  Definition no_component (p : place) (w : list tk) (q : place) : Prop :=
    (w = [] /\ q = p) \/ head_is element_stop w = true.
  Lemma split_components : forall p v ts ms es als cs q, g_body false false G p v ts ms es als cs q ->
    component_after false p p \/ p = First false ->
    exists u l w ms' p', ts = u ++ w /\ ms = l ++ ms' /\ g_block (g_component false false v) u l /\
    g_body false false G p' v w ms' es als cs q /\ no_component p' w q /\
    (p' = p \/ p' = First true /\ exists b, p = First b) /\ (l <> [] -> component_last p').
  Proof.
    intros p v ts ms es als cs q B.
    assert (Stop : component_after false p p \/ p = First false -> head_is element_stop ts = true ->
      exists u l w ms' p', ts = u ++ w /\ ms = l ++ ms' /\ g_block (g_component false false v) u l /\
      g_body false false G p' v w ms' es als cs q /\ no_component p' w q /\
      (p' = p \/ p' = First true /\ exists b, p = First b) /\ (l <> [] -> component_last p')).
    { intros _ Hs. exists [], [], ts, ms, p. repeat (split; auto); [constructor|now right|congruence]. }
    induction B as [p v|p p' v a m b ms es als cs q Cp D B IH|p p' v a c b ms es als cs q Cp D Pa B IH|
      p v b ms es als cs q B IH|p v b ms es als cs q B IH|p v i initial a l b ms es als cs q Di Hi Da B IH|
      p v i initial a l b ms es als cs q Di Hi Da B IH]; intros Cs.
    - exists [], [], [], [], p. repeat (split; auto); [constructor|constructor|now left|congruence].
    - clear Stop.
      assert (Cp' : component_after false p' p' /\ component_last p' /\ (p' = p \/ p' = First true /\ exists b, p = First b)).
      { destruct Cp; [| |discriminate]; (split; [constructor|split; [unfold component_last; auto|]]); eauto. }
      destruct Cp' as (Cp1 & Cl & Cp2).
      destruct IH as (u & l & w & ms' & p1 & -> & -> & Du & Bw & Nc & Hp & Hl); auto.
      { intros _ Hs. exists [], [], b, ms, p'. repeat (split; auto); [constructor|now right]. }
      exists (a ++ KSemi :: u), (m :: l), w, ms', p1. split; [lists|]. split; [lists|].
      split; [now constructor|]. split; auto. split; auto. split.
      + destruct Hp as [->|[-> [b' Eq]]]; auto. destruct Cp2 as [<-|[_ Ex]]; eauto.
      + intros _. destruct Hp as [->|[-> _]]; auto. now left.
    - apply Stop; auto. destruct Pa as [Ab|(w & r & -> & Hw)]; [discriminate|]. cbn in *.
      destruct w; auto; exfalso; intuition discriminate.
    - apply Stop; auto.
    - apply Stop; auto.
    - apply Stop; auto. destruct Di; reflexivity.
    - apply Stop; auto. destruct Di; reflexivity.
  Qed.

  Definition fits (p : place) (v : bool) (c : content) (ts : list tk) : Prop :=
    match p with
    | First _ => c_first c = true /\ v = true
    | Listed true => head_is element_stop ts = true
    | _ => True
    end.
  Lemma after_head : forall p v ts ms es als cs q rest, g_body false false G p v ts ms es als cs q ->
    head_is body_stop rest = true ->
    (p = AfterEquations -> head_is equation_stop (ts ++ rest) = true) /\
    (p = AfterAlgorithm -> head_is algorithm_stop (ts ++ rest) = true).
  Proof.
    intros p v ts ms es als cs q rest B Hr.
    assert (H0 : head_is equation_stop rest = true /\ head_is algorithm_stop rest = true).
    { destruct rest as [|t r]; [discriminate|]. destruct t; try discriminate; auto. destruct w; try discriminate; auto. }
    destruct B as [p v|p p' v a m b ms es als cs q Cp|p p' v a c b ms es als cs q Cp|
      p v b ms es als cs q|p v b ms es als cs q|p v i initial a l b ms es als cs q Di Hi Da|
      p v i initial a l b ms es als cs q Di Hi Da]; auto.
    - destruct H0. auto.
    - split; intros ->; inversion Cp.
    - split; intros ->; inversion Cp.
    - destruct Di; auto. split; intros ->; auto. destruct Hi as [Ab|[Ab|Ab]]; congruence.
    - destruct Di; auto. destruct Hi; discriminate.
  Qed.
  Lemma c_body : forall N p v ts ms es als cs q, List.length ts < N -> g_body false false G p v ts ms es als cs q ->
    forall m c rest, fits p v c (ts ++ rest) -> head_is body_stop rest = true ->
    (component_last q -> head_is element_stop rest = true) ->
    List.length (ts ++ rest) < m -> List.length (ts ++ rest) < n -> List.length (ts ++ rest) < c0 ->
    exists c', class_body C n m c (ts ++ rest) = ret c' rest /\ c_members c' = c_members c ++ ms /\
    c_eqs c' = c_eqs c ++ es /\ c_algs c' = c_algs c ++ als /\ c_inner c' = c_inner c ++ cs.
  Proof.
    induction N; intros p v ts ms es als cs q HN B m c rest Pl Hr Hq Hm Hn Hc; [lia|].
    destruct m as [|m]; [lia|].
    destruct B as [p v|p p' v a mb b ms es als cs q Cp D B|p p' v a x b ms es als cs q Cp D Pa B|
      p v b ms es als cs q B|p v b ms es als cs q B|p v i initial a l b ms es als cs q Di Hi Da B|
      p v i initial a l b ms es als cs q Di Hi Da B].
    - cbn [app]. rewrite body_stops; auto. exists c. now rewrite !app_nil_r.
    - destruct (component_starts _ _ _ _ _ D) as (t & r & -> & Ht).
      assert (Ns : element_stop t = false).
      { destruct t; auto; try destruct Ht. destruct w; auto; destruct Ht. }
      assert (exists b0, p = First b0) as (b0 & ->).
      { destruct Cp; eauto; [|discriminate]. cbn in Pl. congruence. }
      assert (p' = First true) by (inversion Cp; auto). subst p'.
      destruct (split_components _ _ _ _ _ _ _ _ B (or_introl (caf_first _ _)))
        as (u & l & w & ms' & p1 & -> & -> & Du & Bw & Nc & Hp & _).
      assert (p1 = First true) by (destruct Hp as [->|[-> _]]; auto). subst p1. clear Hp.
      destruct Pl as [Pf ->].
      assert (Hw : head_is element_stop (w ++ rest) = true).
      { destruct Nc as [[-> ->]|Nc]; [apply Hq; now left|]. destruct w; [discriminate|exact Nc]. }
      assert (Q : element_list true n (((t :: r) ++ KSemi :: u ++ w) ++ rest) = ret (mb :: l) (w ++ rest)).
      { unfold element_list. replace (((t :: r) ++ KSemi :: u ++ w) ++ rest) with (((t :: r) ++ KSemi :: u) ++ w ++ rest) by lists.
        rewrite (elements_complete true ((t :: r) ++ KSemi :: u) (mb :: l)); auto; [now constructor|].
        lens. }
      assert (HN' : List.length w < N) by (lens).
      destruct (IHN _ _ _ _ _ _ _ _ HN' Bw m (add_members c true (mb :: l)) rest) as (c' & Qb & E1 & E2 & E3 & E4); auto;
        try (split; now auto); try (lens).
      exists c'. cbn in E1, E2, E3, E4. rewrite <- app_assoc in E1. split; [|auto]. rewrite <- Qb.
      assert (Hb : head_is body_stop (((t :: r) ++ KSemi :: u ++ w) ++ rest) = false /\
        head_is inner_start (((t :: r) ++ KSemi :: u ++ w) ++ rest) = false /\
        head_is (fun t => match t with KWord (WEquation | WAlgorithm | WPublic | WProtected) => true | _ => false end)
          (((t :: r) ++ KSemi :: u ++ w) ++ rest) = false /\ t <> KWord WInitial).
      { cbn [app head_is]. destruct t; try destruct Ht; repeat split; auto; try discriminate;
          destruct w0; auto; try discriminate; destruct Ht. }
      destruct Hb as (H1 & H2 & H3 & H4). rewrite body_element; auto; [|cbn; congruence].
      rewrite Pf, Q. reflexivity.
    - assert (Hi : head_is inner_start ((a ++ b) ++ rest) = true).
      { destruct Pa as [Ab|(w & r & -> & Hw)]; [discriminate|]. cbn in *. destruct w; auto; exfalso; intuition discriminate. }
      assert (La : 0 < List.length a).
      { destruct Pa as [Ab|(w & r & -> & Hw)]; [discriminate|]. cbn. lia. }
      rewrite (body_inner _ _ _ _ _ Hi). assoc. rewrite (CC _ _ _ D I); [|len]. rewrite ptry_ret.
      assert (HN' : List.length b < N) by (len).
      destruct (IHN _ _ _ _ _ _ _ _ HN' B m (add_inner c x) rest) as (c' & Qb & E1 & E2 & E3 & E4); auto; try len.
      + destruct Cp; cbn in *; auto.
      + exists c'. cbn in E1, E2, E3, E4. rewrite <- app_assoc in E4. auto.
    - destruct (split_components _ _ _ _ _ _ _ _ B (or_introl (caf_listed _)))
        as (u & l & w & ms' & p1 & -> & -> & Du & Bw & Nc & Hp & _).
      assert (p1 = Listed true) by (destruct Hp as [->|[_ [b Ab]]]; [auto|discriminate]). subst p1.
      assert (Hw : head_is element_stop (w ++ rest) = true).
      { destruct Nc as [[-> ->]|Nc]; [apply Hq; now right|]. destruct w; [discriminate|exact Nc]. }
      cbn [app] in *. rewrite (body_visible C n m c true). assoc. unfold element_list.
      rewrite (elements_complete true u l Du); auto; [|lens]. rewrite ptry_ret.
      assert (HN' : List.length w < N) by (lens).
      destruct (IHN _ _ _ _ _ _ _ _ HN' Bw m (add_members c false l) rest) as (c' & Qb & E1 & E2 & E3 & E4); auto;
        try (lens).
      exists c'. cbn in E1, E2, E3, E4. rewrite <- app_assoc in E1. auto.
    - destruct (split_components _ _ _ _ _ _ _ _ B (or_introl (caf_listed _)))
        as (u & l & w & ms' & p1 & -> & -> & Du & Bw & Nc & Hp & _).
      assert (p1 = Listed true) by (destruct Hp as [->|[_ [b Ab]]]; [auto|discriminate]). subst p1.
      assert (Hw : head_is element_stop (w ++ rest) = true).
      { destruct Nc as [[-> ->]|Nc]; [apply Hq; now right|]. destruct w; [discriminate|exact Nc]. }
      cbn [app] in *. rewrite (body_visible C n m c false). assoc. unfold element_list.
      rewrite (elements_complete false u l Du); auto; [|lens]. rewrite ptry_ret.
      assert (HN' : List.length w < N) by (lens).
      destruct (IHN _ _ _ _ _ _ _ _ HN' Bw m (add_members c false l) rest) as (c' & Qb & E1 & E2 & E3 & E4); auto;
        try (lens).
      exists c'. cbn in E1, E2, E3, E4. rewrite <- app_assoc in E1. auto.
    - destruct (after_head _ _ _ _ _ _ _ _ rest B Hr) as [Ha _]. specialize (Ha eq_refl). assoc.
      rewrite (body_equation _ _ _ _ _ _ _ Di).
      rewrite (equation_section_complete _ _ _ _ _ _ Di Da Ha Hn), ptry_ret.
      assert (HN' : List.length b < N) by (lens).
      destruct (IHN _ _ _ _ _ _ _ _ HN' B m (add_eq c (initial, l)) rest) as (c' & Qb & E1 & E2 & E3 & E4); auto;
        try exact I; try (lens).
      exists c'. cbn in E1, E2, E3, E4. rewrite <- app_assoc in E2. auto.
    - destruct Hi as [Ab|Hi]; [discriminate|]. subst initial. inversion Di. subst i. cbn [app] in *.
      destruct (after_head _ _ _ _ _ _ _ _ rest B Hr) as [_ Ha]. specialize (Ha eq_refl). assoc.
      rewrite body_algorithm.
      rewrite (algorithm_section_complete _ _ _ _ Da Ha Hn), ptry_ret.
      assert (HN' : List.length b < N) by (lens).
      destruct (IHN _ _ _ _ _ _ _ _ HN' B m (add_alg c l) rest) as (c' & Qb & E1 & E2 & E3 & E4); auto;
        try exact I; try (lens).
      exists c'. cbn in E1, E2, E3, E4. rewrite <- app_assoc in E3. auto.
  Qed.
End BodyComplete.
Definition no_comment (ts : list tk) : Prop := match ts with KStr _ :: _ | KAssign :: _ => False | _ => True end.
Lemma body_stop_head : forall ts, head_is body_stop ts = true -> no_comment ts.
Proof. intros ts H. destruct ts as [|t ts]; [exact I|]. destruct t; try exact I; discriminate. Qed.
Lemma body_head : forall G p v b ms es als cs q, g_body false false G p v b ms es als cs q ->
  forall tl, no_comment tl -> no_comment (b ++ tl).
Proof.
  intros G p v b ms es als cs q Db tl H.
  destruct Db as [p v|p p' v a' m b ms es als cs q Cp D B|p p' v a' x b ms es als cs q Cp D Pa B|
    p v b ms es als cs q B|p v b ms es als cs q B|p v i initial a' l b ms es als cs q Di Hi Da B|
    p v i initial a' l b ms es als cs q Di Hi Da B]; cbn [app]; auto.
  - destruct (component_starts _ _ _ _ _ D) as (t & r & -> & T). cbn. destruct t; try exact I; destruct T.
  - destruct Pa as [Ab|(w & r & -> & _)]; [discriminate|exact I].
  - exact I.
  - exact I.
  - destruct Di; exact I.
  - destruct Di; exact I.
Qed.
Theorem class_complete : forall d n, complete (class_fuel n) (g_class_depth false false d) (fun _ => True) n.
Proof.
  induction d; intros n ts x rest D _ Hn; [destruct D|]. destruct n; [lia|].
  cbn [g_class_depth] in D. cbn [class_fuel]. pose proof (IHd n) as CI.
  destruct D as [a k s c b ms es als cs q d' e f an Dk Dc Db De Df Ho|a p s b f l c Dk Db Dc].
  - assert (La : a <> []) by (eapply kind_tokens; eauto).
    unfold class_definition. assoc. rewrite (kind_complete _ _ _ _ Dk), ptry_ret.
    set (tl := d' ++ f ++ KEnd :: KIdent s :: KSemi :: rest).
    assert (Ht : head_is body_stop tl = true).
    { subst tl. destruct De; [|reflexivity]. destruct Df as [|f l Df]; [reflexivity|]. inversion Df. reflexivity. }
    assert (Hq : component_last q -> head_is element_stop tl = true).
    { intros Q. subst tl. destruct De; [|reflexivity]. destruct Df as [|f l Df]; [reflexivity|].
      destruct Ho as [Ab|[Ab|[Ab|Ab]]]; try discriminate; [congruence|contradiction]. }
    assert (Hl : List.length (b ++ tl) < n).
    { subst tl. destruct a; [congruence|]. lens. }
    assert (Hs : no_comment (b ++ tl)).
    { apply (body_head _ _ _ _ _ _ _ _ _ Db). now apply body_stop_head. }
    assert (Hf : fits (First false) true (mkContent [] [] [] [] true) (b ++ tl)) by (split; auto).
    destruct (c_body _ (S n) n _ CI _ _ _ _ _ _ _ _ _ (Nat.lt_succ_diag_r _) Db (S n) _ _ Hf Ht Hq) as (c' & Qb & E1 & E2 & E3 & E4);
      try lia.
    assert (Sk : skip_string (c ++ b ++ tl) = b ++ tl).
    { destruct Dc; [|reflexivity]. cbn [app]. destruct (b ++ tl) as [|t r]; auto. destruct t; auto. destruct Hs. }
    assert (Na : match c ++ b ++ tl with KAssign :: _ => False | _ => True end).
    { destruct Dc; [|exact I]. cbn [app]. destruct (b ++ tl) as [|t r]; auto. destruct t; auto. }
    assert (Qt : ptry (class_body (class_fuel n) (S n) (S n) (mkContent [] [] [] [] true) (skip_string (c ++ b ++ tl)))
      (fun c r2 => ptry (external_clause r2) (fun e r3 => ptry (class_annotation r3) (fun a r4 =>
        match r4 with
        | KEnd :: KIdent s' :: r5 =>
            if text_eqb s s' then
              match r5 with
              | KSemi :: r6 => ret (Cls k s (c_members c) (c_eqs c) (c_algs c) (c_inner c) e a) r6
              | _ => Ok None
              end
            else Ok None
        | _ => Ok None
        end))) = ret (Cls k s ms es als cs e an) rest).
    { rewrite Sk, Qb, ptry_ret. subst tl.
      rewrite (external_complete _ _ _ De).
      2:{ intros _ r. destruct Df as [|f l Df]; [discriminate|]. inversion Df. discriminate. }
      rewrite ptry_ret. rewrite (class_annotation_complete _ _ _ Df); [|discriminate]. rewrite ptry_ret.
      assert (R : text_eqb s s = true) by (now apply text_eqb_eq). rewrite R, E1, E2, E3, E4. reflexivity. }
    destruct (c ++ b ++ tl) as [|t r]; [exact Qt|]. destruct t; try exact Qt. destruct Na.
  - unfold class_definition. assoc. rewrite (kind_complete _ _ _ _ Dk), ptry_ret.
    now apply derivative_complete.
Qed.
Lemma parse_class_complete : forall ts x rest, g_cls false false ts x -> parse_class (ts ++ rest) = ret x rest.
Proof. intros ts x rest [d D]. apply (class_complete d); auto. Qed.
Lemma class_head : forall fl rx ts x, g_cls fl rx ts x -> exists w r, ts = KWord w :: r.
Proof.
  intros fl rx ts x [d D]. destruct d; [destruct D|]. cbn [g_class_depth] in D.
  assert (K : forall a k, g_kind a k -> exists w r, a = KWord w :: r).
  { intros a k Dk. destruct Dk as [| | |a op Da|a op Da|a op Da|a op Da]; try destruct Da; cbn; eauto. }
  destruct D as [a k s c b ms es als cs q d' e f an Dk|a p s b f l c Dk];
    destruct (K _ _ Dk) as (w & r & ->); cbn; eauto.
Qed.
Lemma root_complete : forall ts l, g_root false false ts l -> forall n acc rest,
  (rest = [] \/ exists r, rest = KOther TokEOF :: r) -> List.length ts < n ->
  root_fuel n acc (ts ++ rest) = ret (acc ++ l) rest.
Proof.
  intros ts l D. induction D as [|a c b l D Ds IH]; intros n acc rest Hr Hn; (destruct n as [|n]; [lia|]).
  - cbn [app]. rewrite app_nil_r. destruct Hr as [->|[r ->]]; reflexivity.
  - assoc. pose proof (parse_class_complete _ _ (b ++ rest) D) as Q.
    destruct (class_head _ _ _ _ D) as (w & r & ->). cbn [app] in *. cbn [root_fuel]. rewrite Q, ptry_ret, IH; auto.
    + now rewrite <- app_assoc.
    + lens.
Qed.

(** * The parser ends *)
Tactic Notation "keyed" "as" ident(l) :=
  match goal with
  | |- match ?r with _ => _ end <> NoFuel =>
      destruct r as [|? l]; [discriminate|];
      match goal with |- match ?t with _ => _ end <> NoFuel => destruct t; try discriminate end
  end; cbn [List.length] in *.
Section ModificationFine.
  Variable M : list tk -> pres modif.
  Variables n c : nat.
  Variable G : list tk -> modif -> Prop.
  Hypothesis SM : sound M G.
  Hypothesis FM : fine c M.
  Hypothesis Hn : c < n.
  Lemma f_m_argument : fine (S c) (m_argument M).
  Proof.
    intros ts H. unfold m_argument.
    assert (D : (let (each, r) := take WEach ts in let (final, r1) := take WFinal r in
      match r1 with KWord WReplaceable :: _ => Bad | _ => m_element M each final r1 end) <> NoFuel).
    { destruct (take WEach ts) as [each r0] eqn:T0. destruct (take WFinal r0) as [final r1] eqn:T1.
      destruct (take_sound _ _ _ _ T0) as (a & -> & _). destruct (take_sound _ _ _ _ T1) as (b & -> & _).
      assert (Q : m_element M each final r1 <> NoFuel).
      { unfold m_element. keyed as l. destruct (head_is opens_modif l); [|discriminate].
        apply ptry_fine; [|discriminate]. apply FM. lens. }
      destruct r1 as [|t r1]; auto. destruct t; auto. destruct w; auto. discriminate. }
    destruct ts as [|t ts]; auto. destruct t; auto. destruct w; auto. discriminate.
  Qed.
  Lemma p_m_argument : progress (m_argument M).
  Proof.
    apply (sound_progress _ _ _ (s_m_argument _ _ SM)). intros ts x D.
    destruct D as [a each b final s c' Da Db|a each b final s d m c' Da Db]; destruct Da, Db; discriminate.
  Qed.
  Lemma f_m_class : fine (S (S c)) (m_class M n).
  Proof.
    intros ts H. unfold m_class. keyed. apply ptry_fine.
    - apply sep_loop_fine with (c := S c); [apply f_m_argument|apply p_m_argument|lia|lia].
    - intros x r _. keyed.
  Qed.
End ModificationFine.
Theorem modif_fine : forall n, fine n (modif_fuel n).
Proof.
  induction n; intros ts Hn; [lia|]. cbn [modif_fuel]. unfold m_modification.
  assert (D : ptry (m_class (modif_fuel n) (S n) ts) (fun l r => match r with
        | KAssign :: r1 => ptry (parse_expression r1) (fun e r2 => ret (Modif (Some l) (Some e)) r2)
        | _ => ret (Modif (Some l) None) r end) <> NoFuel).
  { apply ptry_fine.
    - apply (f_m_class _ _ n _ (modif_sound n) IHn); lia.
    - intros l r _. destruct r as [|t r]; [discriminate|]. destruct t; try discriminate. expression_fine. discriminate. }
  destruct ts as [|t ts]; auto. destruct t; auto; expression_fine; discriminate.
Qed.
Lemma parse_modification_fine : forall b, fine b parse_modification.
Proof. intros b ts _. apply modif_fine. lia. Qed.
Lemma parse_annotation_fine : forall ts, parse_annotation ts <> NoFuel.
Proof.
  intros ts. unfold parse_annotation. keyed as l. destruct w; try discriminate. unfold parse_class_modification, rounds.
  apply (f_m_class _ _ (S (List.length l)) _ parse_modification_sound (parse_modification_fine _)); lia.
Qed.
Lemma dimension_fine : forall b, fine b t_dimension.
Proof.
  intros b ts _. unfold t_dimension.
  assert (D : ptry (parse_expression ts) (fun e r => ret (DExpr e) r) <> NoFuel) by (expression_fine; discriminate).
  destruct ts as [|t ts]; auto. destruct t; auto; discriminate.
Qed.
Lemma dimension_progress : progress t_dimension.
Proof.
  apply (sound_progress _ _ _ dimension_sound). intros ts x D. destruct D; try discriminate.
  eapply g_expr_tokens; eauto.
Qed.
Lemma path_fine : forall n acc ts, List.length ts < n -> t_path n acc ts <> NoFuel.
Proof.
  induction n; intros acc ts H; [lia|]. cbn [t_path].
  destruct ts as [|t ts]; [discriminate|]. destruct t; try discriminate. keyed. apply IHn. lia.
Qed.
Lemma type_fine : forall ts, t_type ts <> NoFuel.
Proof.
  intros ts. unfold t_type. destruct (match ts with KDot :: r => (true, r) | _ => (false, ts) end) as [g r].
  keyed. apply ptry_fine.
  - destruct (builtin s); [discriminate|]. apply ptry_fine; [|discriminate]. apply path_fine. unfold rounds. lia.
  - intros v r1 _. apply ptry_fine; [|discriminate]. unfold t_dimensions.
    destruct r1 as [|t r1]; [discriminate|]. destruct t; try discriminate. apply ptry_fine.
    + apply sep_loop_fine with (c := rounds r1); [apply dimension_fine|apply dimension_progress|unfold rounds; lia|unfold rounds; lia].
    + intros ds r2 _. keyed.
Qed.
Lemma element_fine : forall v b, fine b (t_element v).
Proof.
  intros v b ts _. unfold t_element. destruct (take WFinal ts) as [fin r0]. destruct (t_variability r0) as [va r1].
  destruct (t_causality r1) as [k r2]. apply ptry_fine; [apply type_fine|]. intros t r3 _. keyed as l. apply ptry_fine.
  - assert (D : ptry (parse_modification l) (fun m r5 => ret (Some m) r5) <> NoFuel).
    { apply ptry_fine; [|discriminate]. apply (parse_modification_fine (S (List.length l))). lia. }
    destruct l as [|t' l]; [discriminate|]. destruct t'; try discriminate; auto.
  - intros m r5 _. apply ptry_fine; [|discriminate].
    assert (D : ptry (parse_annotation (skip_string r5)) (fun _ r7 => ret tt r7) <> NoFuel).
    { apply ptry_fine; [|discriminate]. apply parse_annotation_fine. }
    destruct (skip_string r5) as [|t' r6]; [discriminate|]. destruct t'; try discriminate. destruct w; try discriminate. auto.
Qed.
Lemma element_progress : forall v, progress (t_element v).
Proof.
  intros v. apply (sound_progress _ _ _ (element_sound v)). intros ts x D.
  destruct (component_starts _ _ _ _ _ D) as (t & r & -> & _). discriminate.
Qed.
Lemma element_list_fine : forall v n ts, List.length ts < n -> element_list v n ts <> NoFuel.
Proof. intros v n ts H. apply (block_fine _ n (element_fine v n) (element_progress v)); auto. Qed.
Lemma equation_section_fine : forall n ts, List.length ts < n -> equation_section n ts <> NoFuel.
Proof.
  intros n ts H. unfold equation_section. destruct (take WInitial ts) as [i r] eqn:T.
  destruct (take_sound _ _ _ _ T) as (a & -> & _). destruct r as [|t r]; [discriminate|]. destruct t; try discriminate.
  destruct w; try discriminate. apply ptry_fine; [|discriminate].
  apply (block_fine _ n); try lens.
  - intros ts' _. apply equation_fine. lia.
  - intros ts' x r' Q. exact (equation_progress _ _ _ _ Q).
Qed.
Lemma algorithm_section_fine : forall n ts, List.length ts < n -> algorithm_section n ts <> NoFuel.
Proof.
  intros n ts H. unfold algorithm_section. destruct ts as [|t ts]; [discriminate|]. destruct t; try discriminate.
  destruct w; try discriminate.
  apply (block_fine _ n); try lens.
  - intros ts' _. apply statement_fine. lia.
  - intros ts' x r' Q. exact (statement_progress _ _ _ _ Q).
Qed.
Lemma external_args_fine : forall n acc ts, S (List.length ts) < n -> external_args n acc ts <> NoFuel.
Proof.
  induction n; intros acc ts H; [lia|]. cbn [external_args].
  assert (D : ptry (parse_expression ts) (fun e r => match r with
      | KRPar :: _ => external_args n (acc ++ [e]) r
      | KComma :: r1 => external_args n (acc ++ [e]) r1
      | _ => Ok None end) <> NoFuel).
  { expression_fine. destruct r as [|t r]; [discriminate|]. cbn [List.length] in Q.
    destruct t; try discriminate; apply IHn; cbn [List.length]; lia. }
  destruct ts as [|t ts]; auto. destruct t; auto. discriminate.
Qed.
Lemma external_fine : forall ts, external_clause ts <> NoFuel.
Proof.
  intros ts. unfold external_clause. destruct ts as [|t ts]; [discriminate|]. destruct t; try discriminate.
  destruct w; try discriminate. destruct (match ts with KStr s :: r1 => (Some s, r1) | _ => (None, ts) end) as [lang r1].
  apply ptry_fine.
  - assert (D : ptry (external_call_of r1) (fun c r2 => ret (Some c) r2) <> NoFuel).
    { apply ptry_fine; [|discriminate]. unfold external_call_of. apply ptry_fine.
      - assert (D : ptry (r_reference r1) (fun d r => match r with KAssign :: r1 => ret (Some d) r1 | _ => Ok None end) <> NoFuel).
        { apply ptry_fine; [apply reference_fine|]. intros d r _. keyed. }
        destruct r1 as [|t r1]; auto. destruct t; auto. destruct r1 as [|t r1]; auto. destruct t; auto. discriminate.
      - intros d r _. keyed. keyed. apply ptry_fine; [apply external_args_fine; unfold rounds; lia|]. intros a r' _. keyed. }
    destruct r1 as [|t r1]; [discriminate|]. destruct t; auto; discriminate.
  - intros c r2 _. apply ptry_fine; [|intros a r3 _; keyed].
    assert (D : ptry (parse_annotation r2) (fun a r3 => ret (Some a) r3) <> NoFuel).
    { apply ptry_fine; [apply parse_annotation_fine|discriminate]. }
    destruct r2 as [|t r2]; auto. destruct t; auto. discriminate.
Qed.
Lemma class_annotation_fine : forall ts, class_annotation ts <> NoFuel.
Proof.
  intros ts. unfold class_annotation. destruct ts as [|t ts]; [discriminate|]. destruct t; try discriminate.
  destruct w; try discriminate. apply ptry_fine; [apply parse_annotation_fine|]. intros a r _. keyed.
Qed.
Lemma kind_fine : forall ts, class_kind ts <> NoFuel.
Proof.
  intros ts. unfold class_kind. keyed as l. destruct w; try discriminate.
  - keyed. destruct w; discriminate.
  - destruct (snd (take WOperator l)) as [|t r]; [discriminate|]. destruct t; try discriminate. destruct w; discriminate.
  - destruct (snd (take WOperator l)) as [|t r]; [discriminate|]. destruct t; try discriminate. destruct w; discriminate.
Qed.
Lemma der_vars_fine : forall n acc ts, List.length ts < n -> der_vars n acc ts <> NoFuel.
Proof.
  induction n; intros acc ts H; [lia|]. cbn [der_vars]. destruct ts as [|t ts]; [discriminate|].
  destruct t; try discriminate. expression_fine. apply IHn. cbn [List.length] in *. lia.
Qed.
Lemma derivative_fine : forall k s ts, derivative k s ts <> NoFuel.
Proof.
  intros k s ts. unfold derivative. destruct k; try discriminate. keyed. keyed. expression_fine.
  apply ptry_fine; [apply der_vars_fine; unfold rounds; lia|]. intros vs r1 _. keyed.
  destruct (skip_string _) as [|t r2]; [discriminate|]. destruct t; discriminate.
Qed.

(** The texts on which the loop over the sections moves on. *)
Definition calm (ts : list tk) : Prop :=
  (forall u r w, ts = u ++ KWord w :: r -> w <> WPublic /\ w <> WProtected) /\
  (forall u r, ts = u ++ KWord WInitial :: r ->
   exists r', r = KWord WEquation :: r' \/ r = KWord WAlgorithm :: r').
Lemma calm_app : forall u r, calm (u ++ r) -> calm r.
Proof.
  intros u r [H1 H2]. split.
  - intros v s w ->. apply (H1 (u ++ v) s). now rewrite app_assoc.
  - intros v s ->. apply (H2 (u ++ v)). now rewrite app_assoc.
Qed.
Section BodyFine.
  Variable C : list tk -> pres cls.
  Variables n c0 : nat.
  Variable G : list tk -> cls -> Prop.
  Hypothesis SC : sound C G.
  Hypothesis TC : forall ts x, G ts x -> ts <> [].
  Hypothesis FC : forall ts, calm ts -> List.length ts < c0 -> C ts <> NoFuel.
  Lemma f_body : forall m c ts, calm ts -> c_first c = true ->
    List.length ts < m -> List.length ts < n -> List.length ts < c0 -> class_body C n m c ts <> NoFuel.
  Proof.
    induction m; intros c ts K F Hm Hn Hc; [lia|].
    destruct (rounds_all ts) as [ts S|i initial r0 Di|r0|r0|public r0|ts S|ts S1 S2 S3 S4 S5].
    - rewrite (body_stops _ _ _ _ _ S). discriminate.
    - rewrite (body_equation _ _ _ _ _ _ _ Di). apply ptry_fine; [now apply equation_section_fine|].
      intros x r1 H. destruct (equation_section_sound _ _ _ _ H) as (i' & a & initial' & l & Eq & -> & _).
      rewrite Eq in *. apply calm_app in K. apply IHm; auto; lens.
    - discriminate.
    - rewrite body_algorithm. apply ptry_fine; [now apply algorithm_section_fine|].
      intros x r1 H. destruct (algorithm_section_sound _ _ _ _ H) as (a & Eq & _).
      rewrite Eq in *. apply calm_app in K. apply IHm; auto; lens.
    - exfalso. destruct K as [K _]. specialize (K [] _ _ eq_refl). destruct public, K; congruence.
    - rewrite (body_inner _ _ _ _ _ S). apply ptry_fine; [now apply FC|].
      intros x r1 H. destruct (SC _ _ _ H) as (a & -> & D). apply TC in D. destruct a; [congruence|].
      apply calm_app in K. apply IHm; auto; lens.
    - rewrite (body_element _ _ _ _ _ S1 S2 S4 S5), F. apply ptry_fine; [now apply element_list_fine|].
      intros l r1 H.
      destruct (block_sound _ _ _ (element_sound true) _ _ _ _ _ H) as (a & l' & -> & _ & _ & Hs).
      destruct a as [|t a].
      + exfalso. cbn [app] in *. destruct (S3 Hs) as (r & ->). destruct K as [_ K].
        destruct (K [] r eq_refl) as (r' & [->| ->]); destruct (S5 _ _ eq_refl); congruence.
      + apply calm_app in K. apply IHm; auto; lens.
  Qed.
End BodyFine.
Theorem class_fine : forall n ts, calm ts -> List.length ts < n -> class_fuel n ts <> NoFuel.
Proof.
  induction n; intros ts K Hn; [lia|]. cbn [class_fuel]. unfold class_definition.
  apply ptry_fine; [apply kind_fine|]. intros k r H. destruct (kind_sound _ _ _ H) as (a & -> & Dk).
  apply kind_tokens in Dk. destruct a as [|t0 a]; [congruence|].
  destruct r as [|t r]; [discriminate|]. destruct t; try discriminate.
  assert (Q : ptry (class_body (class_fuel n) (S n) (S n) (mkContent [] [] [] [] true) (skip_string r))
      (fun c r2 => ptry (external_clause r2) (fun e r3 => ptry (class_annotation r3) (fun a r4 =>
        match r4 with
        | KEnd :: KIdent s' :: r5 =>
            if text_eqb s s' then
              match r5 with
              | KSemi :: r6 => ret (Cls k s (c_members c) (c_eqs c) (c_algs c) (c_inner c) e a) r6
              | _ => Ok None
              end
            else Ok None
        | _ => Ok None
        end))) <> NoFuel).
  { apply ptry_fine.
    - destruct (comment_sound r) as (c & Eq & _). set (r0 := skip_string r) in *. clearbody r0. subst r.
      assert (K' : calm r0).
      { apply (calm_app ((t0 :: a) ++ KIdent s :: c)). now rewrite <- app_assoc. }
      apply (f_body _ _ n _ (class_sound n) (class_tokens _ _ _) (fun ts K H => IHn ts K H)); auto; lens.
    - intros c r2 _. apply ptry_fine; [apply external_fine|]. intros e r3 _.
      apply ptry_fine; [apply class_annotation_fine|]. intros an r4 _. keyed. keyed.
      destruct (text_eqb s s0); [|discriminate]. keyed. }
  destruct r as [|t r]; auto. destruct t; auto. apply derivative_fine.
Qed.
Theorem root_fine : forall n acc ts, calm ts -> List.length ts < n -> root_fuel n acc ts <> NoFuel.
Proof.
  induction n; intros acc ts K Hn; [lia|]. cbn [root_fuel].
  assert (Q : ptry (parse_class ts) (fun c r => root_fuel n (acc ++ [c]) r) <> NoFuel).
  { apply ptry_fine; [apply class_fine; auto|]. intros c r H.
    destruct (class_sound _ _ _ _ H) as (u & -> & D). apply class_tokens in D. destruct u; [congruence|].
    apply calm_app in K. apply IHn; auto. lens. }
  destruct ts as [|t ts]; [discriminate|]. destruct t; auto. destruct t; auto. discriminate.
Qed.
