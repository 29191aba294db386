(** Proofs about the lexer. *)
From Coq Require Import ZArith QArith List Bool String Lia ZifyBool.
From Verif Require Import Result SubscriptModel LexerModel LexerSpec FloatLexerProofs.
Import ListNotations.
Local Open Scope string_scope.
Local Open Scope list_scope.
Local Open Scope Z_scope.

Inductive quiet : lmach -> text -> lmach -> text -> Prop :=
| quiet_refl : forall m r, quiet m r m r
| quiet_step : forall m c r m1 m2 r2, step m c (hd 0 r) = Ok (m1, None) ->
    quiet m1 r m2 r2 -> quiet m (c :: r) m2 r2.

Inductive emits : lmach -> text -> token -> lmach -> text -> Prop :=
| emits_now : forall m c r t m', step m c (hd 0 r) = Ok (m', Some t) -> emits m (c :: r) t m' r
| emits_later : forall m c r t m1 m' r', step m c (hd 0 r) = Ok (m1, None) ->
    emits m1 r t m' r' -> emits m (c :: r) t m' r'.

Lemma quiet_trans : forall m1 r1 m2 r2 m3 r3, quiet m1 r1 m2 r2 -> quiet m2 r2 m3 r3 -> quiet m1 r1 m3 r3.
Proof. induction 1; auto. intros. eapply quiet_step; eauto. Qed.
Lemma quiet_emits : forall m1 r1 m2 r2 t m3 r3, quiet m1 r1 m2 r2 -> emits m2 r2 t m3 r3 -> emits m1 r1 t m3 r3.
Proof. induction 1; auto. intros. eapply emits_later; eauto. Qed.

Lemma quiet_lex : forall m r m' r', quiet m r m' r' -> forall k,
  lex_token (List.length r + k) m r = lex_token (List.length r' + k) m' r'.
Proof.
  induction 1 as [|m c r m1 m2 r2 S _ IH]; intros k; auto. rewrite <- IH.
  cbn [List.length Nat.add lex_token hd tl]. rewrite S. reflexivity.
Qed.
Lemma emits_lex : forall m r t m' r', emits m r t m' r' -> forall k,
  lex_token (List.length r + k) m r = Ok (t, m', r').
Proof.
  induction 1 as [m c r t m' S|m c r t m1 m' r' S _ IH]; intros k;
    cbn [List.length Nat.add lex_token hd tl]; rewrite S; cbn [bind]; auto.
Qed.
Lemma emits_shorter : forall m r t m' r', emits m r t m' r' -> (List.length r' < List.length r)%nat.
Proof. induction 1; cbn; lia. Qed.

(** White space and comments. *)
Lemma space_isSpace : forall c, space c -> isSpace c = true.
Proof. unfold space, isSpace. intros. lia. Qed.
Lemma letter_b : forall c, letter c <-> isNonDigit c = true.
Proof. unfold letter, isNonDigit. intros. lia. Qed.
Lemma digit_b : forall c, digit c <-> isDigit c = true.
Proof. unfold digit, isDigit. intros. lia. Qed.

Lemma quiet_space : forall c r i s f, space c -> quiet (mkL LNormal i s f) (c :: r) (mkL LNormal i s f) r.
Proof.
  intros. eapply quiet_step; [|apply quiet_refl]. unfold step, scan_normal. cbn [l_state].
  now rewrite space_isSpace.
Qed.

Lemma quiet_line : forall t r i s f, Forall (fun c => c <> 0 /\ c <> 10) t ->
  quiet (mkL LLine i s f) (t ++ 10 :: r) (mkL LNormal i s f) r.
Proof.
  induction t as [|c t IH]; intros r i s f H; cbn [app].
  - eapply quiet_step; [|apply quiet_refl]. unfold step, scan_line. cbn [l_state].
    change (10 =? 10) with true. rewrite orb_true_r. reflexivity.
  - inversion H; subst. eapply quiet_step; [|apply IH; auto].
    unfold step, scan_line. cbn [l_state].
    assert (E : hd 0 (t ++ 10 :: r) <> 0) by (destruct t as [|y t]; cbn; [lia|inversion H3; lia]).
    replace ((hd 0 (t ++ 10 :: r) =? 0) || (c =? 10)) with false by lia. reflexivity.
Qed.

Lemma quiet_block : forall t r i s f, Forall (fun c => c <> 0) t -> (forall a b, t <> a ++ codes "*/" ++ b) ->
  quiet (mkL LBlock i s f) (t ++ 42 :: 47 :: r) (mkL LNormal i s f) r.
Proof.
  induction t as [|c t IH]; intros r i s f H N; cbn [app].
  - eapply quiet_step; [reflexivity|]. eapply quiet_step; [reflexivity|apply quiet_refl].
  - inversion H; subst. eapply quiet_step; [|apply IH; auto].
    + unfold step, scan_block. cbn [l_state].
      assert (E : hd 0 (t ++ 42 :: 47 :: r) <> 0) by (destruct t as [|y t]; cbn; [lia|inversion H3; lia]).
      assert (E2 : c = 42 -> hd 0 (t ++ 42 :: 47 :: r) <> 47).
      { intros -> E2. destruct t as [|y t]; cbn in E2; [lia|]. subst. apply (N [] t). reflexivity. }
      replace ((c =? 42) && (hd 0 (t ++ 42 :: 47 :: r) =? 47)) with false by lia.
      replace (hd 0 (t ++ 42 :: 47 :: r) =? 0) with false by lia. reflexivity.
    + intros a b E. apply (N (c :: a) b). cbn. now rewrite E.
Qed.

Lemma quiet_item : forall x r i s f, sepitem_ok x ->
  quiet (mkL LNormal i s f) (sepitem_text x ++ r) (mkL LNormal i s f) r.
Proof.
  intros [c|t|t] r i s f H; cbn [sepitem_ok sepitem_text] in *.
  - now apply quiet_space.
  - change (codes "//") with [47; 47]. cbn [app]. eapply quiet_step; [reflexivity|].
    rewrite <- app_assoc. cbn [app]. apply (quiet_line (47 :: t)). constructor; auto. lia.
  - destruct H as (H1 & H2 & H3). change (codes "/*") with [47; 42]. change (codes "*/") with [42; 47] in *.
    cbn [app]. eapply quiet_step; [reflexivity|].
    rewrite <- app_assoc. cbn [app]. apply (quiet_block (42 :: t)); [constructor; auto; lia|].
    intros a b. change (codes "*/") with [42; 47]. destruct a as [|x a]; cbn [app]; intros E.
    + inversion E; subst. now apply H3.
    + inversion E; subst. now apply (H2 a b).
Qed.
Lemma quiet_sep : forall l r i s f, Forall sepitem_ok l ->
  quiet (mkL LNormal i s f) (sep_text l ++ r) (mkL LNormal i s f) r.
Proof.
  induction l as [|x l IH]; intros r i s f H; [apply quiet_refl|].
  inversion H; subst. cbn [sep_text flat_map]. rewrite <- app_assoc.
  eapply quiet_trans; [now apply quiet_item|]. now apply IH.
Qed.

(** Identifiers and keywords. *)
Lemma text_eqb_eq : forall a b, text_eqb a b = true <-> a = b.
Proof.
  induction a as [|x a IH]; intros [|y b]; cbn; try (split; [discriminate|discriminate]); [tauto|].
  rewrite andb_true_iff, IH, Z.eqb_eq. split; [intros []; congruence|intros E; inversion E; auto].
Qed.
Lemma is_keyword_in : forall s, is_keyword s = true <-> In s keywords.
Proof.
  intros s. unfold is_keyword. rewrite existsb_exists. split.
  - intros (x & I & E). apply text_eqb_eq in E. now subst.
  - intros I. exists s. split; auto. now apply text_eqb_eq.
Qed.

Definition word (s : text) : token := if is_keyword s then TokKey s else TokIdent s.

Lemma not_digit_b : forall c, ~ digit c -> isDigit c = false.
Proof. intros c H. apply not_true_iff_false. now rewrite <- digit_b. Qed.
Lemma not_letter_b : forall c, ~ letter c -> isNonDigit c = false.
Proof. intros c H. apply not_true_iff_false. now rewrite <- letter_b. Qed.

Lemma emits_ident : forall s c acc r st f, Forall (fun x => letter x \/ digit x) s ->
  ~ letter (hd 0 r) -> ~ digit (hd 0 r) ->
  emits (mkL LIdent acc st f) (c :: s ++ r) (word (acc ++ c :: s)) (mkL LNormal (acc ++ c :: s) st f) r.
Proof.
  induction s as [|x s IH]; intros c acc r st f H W1 W2; cbn [app].
  - apply emits_now. unfold step, scan_ident. cbn [l_state push_ident set_state l_ident l_string l_num].
    rewrite not_digit_b, not_letter_b by auto. reflexivity.
  - inversion H; subst. eapply emits_later.
    + unfold step, scan_ident. cbn [l_state push_ident set_state l_ident l_string l_num hd].
      assert (E : negb (isDigit x) && negb (isNonDigit x) = false).
      { destruct H2 as [L|D]; [apply letter_b in L; rewrite L|apply digit_b in D; rewrite D]; lia. }
      rewrite E. reflexivity.
    + replace (acc ++ c :: x :: s) with ((acc ++ [c]) ++ x :: s) by now rewrite <- app_assoc. now apply IH.
Qed.

Lemma step_ident : forall c nxt i st f, isNonDigit c = true \/ (c = 36 /\ isNonDigit nxt = true) ->
  step (mkL LNormal i st f) c nxt = step (mkL LIdent [] st f) c nxt.
Proof.
  intros c nxt i st f H. unfold step, scan_normal. cbn [l_state l_string l_num].
  replace (isSpace c) with false by (unfold isSpace, isNonDigit in *; lia).
  replace (isNonDigit c || (c =? 36) && isNonDigit nxt) with true by lia. reflexivity.
Qed.
Lemma emits_first : forall m m0 c r t m' r', (forall n, n = hd 0 r -> step m c n = step m0 c n) ->
  emits m0 (c :: r) t m' r' -> emits m (c :: r) t m' r'.
Proof.
  intros m m0 c r t m' r' H E. inversion E; subst.
  - apply emits_now. now rewrite H.
  - eapply emits_later; eauto. now rewrite H.
Qed.

Lemma emits_word : forall s r i st f, identifier s -> ~ letter (hd 0 r) -> ~ digit (hd 0 r) ->
  emits (mkL LNormal i st f) (s ++ r) (word s) (mkL LNormal s st f) r.
Proof.
  intros s r i st f (c & s' & [->| ->] & L & A) W1 W2; cbn [app].
  - eapply emits_first; [intros n _; apply step_ident; left; now apply letter_b|].
    now apply (emits_ident s' c []).
  - eapply emits_first; [intros n ->; apply step_ident; right; split; auto; now apply letter_b|].
    apply (emits_ident (c :: s') 36 []); auto.
Qed.

Lemma keyword_identifier : forall s, In s keywords -> identifier s.
Proof.
  assert (H : Forall (fun s => exists c s', s = c :: s' /\ letter c /\ Forall (fun x => letter x \/ digit x) s') keywords).
  { unfold keywords. cbn [map].
    repeat constructor; (eexists; eexists; split; [vm_compute; reflexivity|]; split;
      [unfold letter; lia|repeat constructor; unfold letter; lia]). }
  intros s I. rewrite Forall_forall in H. destruct (H s I) as (c & s' & E & L & A).
  exists c, s'. auto.
Qed.

(** Quoted identifiers and strings. *)
Lemma emits_quoted : forall s acc r st f, Forall (fun c => c <> 0) s ->
  emits (mkL LQIdent acc st f) (flat_map (quoted_char 39) s ++ 39 :: r) (TokIdent (acc ++ s))
        (mkL LNormal (acc ++ s) st f) r.
Proof.
  induction s as [|c s IH]; intros acc r st f H; cbn [flat_map app].
  - rewrite app_nil_r. apply emits_now. reflexivity.
  - inversion H; subst. replace (acc ++ c :: s) with ((acc ++ [c]) ++ s) by now rewrite <- app_assoc.
    unfold quoted_char at 1. destruct ((c =? 39) || (c =? 92))%bool eqn:E; cbn [app].
    + eapply emits_later; [reflexivity|]. eapply emits_later; [|apply IH; auto].
      unfold step. cbn [l_state set_state push_ident l_ident l_string l_num].
      replace (escapedChar c) with c; [reflexivity|]. assert (c = 39 \/ c = 92) as [-> | ->] by lia; reflexivity.
    + eapply emits_later; [|apply IH; auto]. unfold step, scan_qident. cbn [l_state].
      replace (c =? 92) with false by lia. replace (c =? 39) with false by lia.
      assert (N : hd 0 (flat_map (quoted_char 39) s ++ 39 :: r) <> 0).
      { destruct s as [|x s]; cbn [flat_map app hd]; [lia|]. inversion H3; subst. unfold quoted_char at 1.
        destruct ((x =? 39) || (x =? 92))%bool; cbn; lia. }
      replace (hd 0 (flat_map (quoted_char 39) s ++ 39 :: r) =? 0) with false by lia. reflexivity.
Qed.

Lemma emits_string : forall s acc r i f, Forall (fun c => c <> 0) s ->
  emits (mkL LString i acc f) (flat_map (quoted_char 34) s ++ 34 :: r) (TokString (acc ++ s))
        (mkL LNormal i (acc ++ s) f) r.
Proof.
  induction s as [|c s IH]; intros acc r i f H; cbn [flat_map app].
  - rewrite app_nil_r. apply emits_now. reflexivity.
  - inversion H; subst. replace (acc ++ c :: s) with ((acc ++ [c]) ++ s) by now rewrite <- app_assoc.
    unfold quoted_char at 1. destruct ((c =? 34) || (c =? 92))%bool eqn:E; cbn [app].
    + eapply emits_later; [reflexivity|]. eapply emits_later; [|apply IH; auto].
      unfold step. cbn [l_state set_state push_string l_ident l_string l_num].
      replace (escapedChar c) with c; [reflexivity|]. assert (c = 34 \/ c = 92) as [-> | ->] by lia; reflexivity.
    + eapply emits_later; [|apply IH; auto]. unfold step, scan_string. cbn [l_state].
      replace (c =? 0) with false by lia. replace (c =? 34) with false by lia.
      replace (c =? 92) with false by lia. reflexivity.
Qed.

(** Symbols. *)
Lemma not_in_b : forall c (l : list Z), ~ In c l -> existsb (Z.eqb c) l = false.
Proof.
  intros c l H. apply not_true_iff_false. intros E. apply existsb_exists in E as (x & I & E).
  apply Z.eqb_eq in E. now subst.
Qed.
Ltac in_follow W :=
  apply not_in_b; let X := fresh in intros X; vm_compute in X;
  repeat destruct X as [X|X]; try contradiction; rewrite <- X in W; apply W; vm_compute; tauto.
Ltac eq_follow W :=
  apply Z.eqb_neq; let X := fresh in intros X; rewrite X in W; apply W; vm_compute; tauto.
Lemma emits_symbol : forall s r i st f, In s symbols -> follows (LtSym s) (hd 0 r) ->
  emits (mkL LNormal i st f) (s ++ r) (TokSym s) (mkL LNormal i st f) r.
Proof.
  intros s r i st f I [W1 W2]. remember (hd 0 r) as w eqn:RW.
  vm_compute in I.
  repeat destruct I as [<-|I]; try contradiction; cbn [app] in *;
    first [ eapply emits_later; [reflexivity|]; apply emits_now; reflexivity | idtac ];
    apply emits_now; rewrite <- RW; clear RW;
    first [ reflexivity
          | assert (E : existsb (Z.eqb w) (codes "+-*/^") = false) by in_follow W1;
            unfold step, scan_normal, scan_symbol, char_in; cbn [l_state]; rewrite E; reflexivity
          | assert (E : existsb (Z.eqb w) (codes ">=") = false) by in_follow W1;
            unfold step, scan_normal, scan_symbol, char_in; cbn [l_state]; rewrite E; reflexivity
          | assert (E : (w =? 61) = false) by eq_follow W1;
            unfold step, scan_normal, scan_symbol, char_in; cbn [l_state]; rewrite E; reflexivity
          | assert (E : (w =? 47) = false) by eq_follow W2; assert (E' : (w =? 42) = false) by eq_follow W2;
            unfold step, scan_normal, scan_symbol, char_in; cbn [l_state]; rewrite E, E'; reflexivity ].
Qed.

(** Numbers. *)
Definition num_state (s : lstate) (i st : text) (f : flexer) : lmach := mkL s i st f.

Lemma text_digit : forall d, 0 <= d <= 9 -> isDigit (d + 48) = true.
Proof. unfold isDigit. intros. lia. Qed.

Definition stop (c : Z) : Prop := isDigit c = false /\ c <> 46 /\ c <> 69 /\ c <> 101.

(** The digits of the integer part up to one that is followed by [nxt]. *)
Lemma quiet_upper : forall ds us i st r, digits_ok us -> digits_ok ds -> decimal (us ++ ds) < 2 ^ 63 ->
  isDigit (hd 0 r) = true \/ hd 0 r = 46 \/ hd 0 r = 69 \/ hd 0 r = 101 ->
  quiet (mkL LNumber i st (builder us [] false [] true)) (digits_text ds ++ r)
        (mkL LNumber i st (builder (us ++ ds) [] false [] true)) r.
Proof.
  induction ds as [|d ds IH]; intros us i st r U D B N; cbn [digits_text map app].
  - rewrite app_nil_r. apply quiet_refl.
  - inversion D as [|d' ds' D1 D2]; subst. replace (us ++ d :: ds) with ((us ++ [d]) ++ ds) in * by now rewrite <- app_assoc.
    assert (U' : digits_ok (us ++ [d])) by (apply Forall_app; auto).
    eapply quiet_step; [|apply IH; auto].
    unfold step, scan_number. cbn [l_state l_num]. rewrite text_digit by auto.
    replace (d + 48 - 48) with d by lia.
    rewrite add_upper by (auto; pose proof (decimal_prefix (us ++ [d]) ds U' D2); lia). cbn [bind].
    replace (d + 48 =? 46) with false by lia. replace ((d + 48 =? 69) || (d + 48 =? 101)) with false by lia.
    set (h := hd 0 _). replace (isDigit h || (h =? 46) || (h =? 101) || (h =? 69)) with true; [reflexivity|].
    subst h. fold (digits_text ds). destruct ds as [|y ds]; cbn [digits_text map app hd] in *; [lia|].
    inversion D2; subst. rewrite text_digit by auto. reflexivity.
Qed.

Lemma step_number : forall d n i st f, 0 <= d <= 9 ->
  step (mkL LNormal i st f) (d + 48) n = step (mkL LNumber i st fl_reset) (d + 48) n.
Proof.
  intros d n i st f D. unfold step, scan_normal. cbn [l_state l_ident l_string].
  replace (isSpace (d + 48)) with false by (unfold isSpace; lia).
  replace (isNonDigit (d + 48)) with false by (unfold isNonDigit; lia).
  replace (d + 48 =? 36) with false by lia. replace (d + 48 =? 39) with false by lia.
  cbn [orb andb]. now rewrite text_digit.
Qed.

Lemma last_digit : forall ds, ds <> [] -> digits_ok ds -> exists a d, ds = a ++ [d] /\ digits_ok a /\ 0 <= d <= 9.
Proof.
  intros ds N D. destruct (exists_last N) as (a & d & ->). exists a, d. split; auto.
  apply Forall_app in D as [D1 D2]. inversion D2; auto.
Qed.

Lemma digits_text_app : forall a b, digits_text (a ++ b) = digits_text a ++ digits_text b.
Proof. intros. apply map_app. Qed.

Lemma emits_int : forall ds i st r, ds <> [] -> digits_ok ds -> decimal ds < 2 ^ 63 -> stop (hd 0 r) ->
  emits (mkL LNumber i st (builder [] [] false [] true)) (digits_text ds ++ r)
    (TokInt (decimal ds)) (mkL LNormal i st (builder ds [] false [] true)) r.
Proof.
  intros ds i st r N D B (S1 & S2 & S3 & S4). destruct (last_digit ds N D) as (a & d & -> & A & Dd).
  rewrite digits_text_app, <- app_assoc. eapply quiet_emits.
  - apply quiet_upper; auto.
    + constructor.
    + cbn [app]. pose proof (decimal_prefix a [d] A ltac:(repeat constructor; lia)). lia.
    + left. cbn. now apply text_digit.
  - cbn [digits_text map app]. apply emits_now. unfold step, scan_number. cbn [l_state l_num].
    rewrite text_digit by auto. replace (d + 48 - 48) with d by lia. rewrite add_upper by auto. cbn [bind].
    replace (d + 48 =? 46) with false by lia. replace ((d + 48 =? 69) || (d + 48 =? 101)) with false by lia.
    rewrite S1. replace ((hd 0 r =? 46)) with false by lia. replace ((hd 0 r =? 101)) with false by lia.
    replace ((hd 0 r =? 69)) with false by lia. reflexivity.
Qed.

(** The digits of the fraction. *)
Lemma quiet_lower : forall ds us fs i st r, digits_ok fs -> digits_ok ds -> decimal (fs ++ ds) < 2 ^ 63 ->
  Z.of_nat (List.length (fs ++ ds)) < 2 ^ 31 ->
  isDigit (hd 0 r) = true \/ hd 0 r = 69 \/ hd 0 r = 101 ->
  quiet (mkL LFloat i st (builder us fs false [] true)) (digits_text ds ++ r)
        (mkL LFloat i st (builder us (fs ++ ds) false [] true)) r.
Proof.
  induction ds as [|d ds IH]; intros us fs i st r U D B L N; cbn [digits_text map app].
  - rewrite app_nil_r. apply quiet_refl.
  - inversion D as [|d' ds' D1 D2]; subst. replace (fs ++ d :: ds) with ((fs ++ [d]) ++ ds) in * by now rewrite <- app_assoc.
    assert (U' : digits_ok (fs ++ [d])) by (apply Forall_app; auto).
    eapply quiet_step; [|apply IH; auto].
    unfold step, scan_float. cbn [l_state l_num]. rewrite text_digit by auto.
    replace (isSpace (d + 48) || (d + 48 =? 0)) with false by (unfold isSpace; lia).
    replace (d + 48 - 48) with d by lia.
    rewrite add_lower by (auto; pose proof (decimal_prefix (fs ++ [d]) ds U' D2); try rewrite app_length in L; lia).
    cbn [bind]. replace ((d + 48 =? 69) || (d + 48 =? 101)) with false by lia. cbn [andb].
    set (h := hd 0 _). replace (isDigit h || (h =? 69) || (h =? 101)) with true; [reflexivity|].
    subst h. fold (digits_text ds). destruct ds as [|y ds]; cbn [digits_text map app hd] in *; [lia|].
    inversion D2; subst. rewrite text_digit by auto. reflexivity.
Qed.

Lemma float_emits : forall us fs h xs s i st state, digits_ok fs -> decimal fs < 10 ^ 18 -> (h = false -> xs = []) ->
  exists q, float_token (mkL state i st (builder us fs h xs s)) = Ok (mkL LNormal i st (builder us fs h xs s), Some (TokFloat q))
    /\ q == real_value us fs (if s then decimal xs else - decimal xs).
Proof.
  intros us fs h xs s i st state F B H. destruct (fl_get_value us fs h xs s F B H) as (q & E & V).
  exists q. split; auto. unfold float_token. cbn [l_num]. rewrite E. reflexivity.
Qed.

(** The fraction without an exponent. *)
Lemma emits_nofraction : forall us i st w r, space w ->
  exists q, emits (mkL LFloat i st (builder us [] false [] true)) (w :: r)
    (TokFloat q) (mkL LNormal i st (builder us [] false [] true)) r /\ q == real_value us [] 0.
Proof.
  intros us i st w r W. assert (F : digits_ok []) by constructor.
  destruct (float_emits us [] false [] true i st LFloat F eq_refl (fun _ => eq_refl)) as (q & Q1 & Q2).
  exists q. split; [|auto]. apply emits_now.
  unfold step, scan_float. cbn [l_state]. rewrite (space_isSpace w W). exact Q1.
Qed.
Lemma emits_fraction : forall us fs i st r, fs <> [] -> digits_ok fs -> decimal fs < 10 ^ 18 ->
  Z.of_nat (List.length fs) < 2 ^ 31 -> isDigit (hd 0 r) = false -> hd 0 r <> 69 -> hd 0 r <> 101 ->
  exists q, emits (mkL LFloat i st (builder us [] false [] true)) (digits_text fs ++ r)
    (TokFloat q) (mkL LNormal i st (builder us fs false [] true)) r
    /\ q == real_value us fs 0.
Proof.
  intros us fs i st r N F B L S1 S2 S3.
  destruct (float_emits us fs false [] true i st LFloat) as (q & Q1 & Q2); auto.
  exists q. split; [|auto].
  destruct (last_digit fs N F) as (a & d & -> & A & D).
  rewrite digits_text_app, <- app_assoc in *.
  pose proof (decimal_bound (a ++ [d]) F) as DB.
  assert (decimal a <= decimal (a ++ [d])) by (apply decimal_prefix; auto; constructor; auto).
  assert (10 ^ 18 < 2 ^ 63) by reflexivity. rewrite app_length in L. eapply quiet_emits.
  - apply quiet_lower; auto.
    + constructor.
    + cbn [app]. lia.
    + cbn [app]. lia.
    + left. cbn. now apply text_digit.
  - cbn [digits_text map app]. apply emits_now. unfold step, scan_float. cbn [l_state l_num].
    rewrite text_digit by auto. replace (isSpace (d + 48) || (d + 48 =? 0)) with false by (unfold isSpace; lia).
    replace (d + 48 - 48) with d by lia. rewrite add_lower by (auto; rewrite ?app_length; lia). cbn [bind].
    replace ((d + 48 =? 69) || (d + 48 =? 101)) with false by lia. cbn [andb].
    rewrite S1. replace (hd 0 r =? 69) with false by lia. replace (hd 0 r =? 101) with false by lia. exact Q1.
Qed.

(** The digits of the exponent. *)
Lemma quiet_exp : forall ds us fs xs h s i st r, digits_ok xs -> digits_ok ds -> decimal (xs ++ ds) < 2 ^ 63 ->
  isDigit (hd 0 r) = true -> (ds = [] -> h = true) ->
  quiet (mkL LExp i st (builder us fs h xs s)) (digits_text ds ++ r)
        (mkL LExp i st (builder us fs true (xs ++ ds) s)) r.
Proof.
  induction ds as [|d ds IH]; intros us fs xs h s i st r U D B N HH; cbn [digits_text map app].
  - rewrite app_nil_r, (HH eq_refl). apply quiet_refl.
  - inversion D as [|d' ds' D1 D2]; subst. replace (xs ++ d :: ds) with ((xs ++ [d]) ++ ds) in * by now rewrite <- app_assoc.
    assert (U' : digits_ok (xs ++ [d])) by (apply Forall_app; auto).
    eapply quiet_step; [|apply (IH us fs (xs ++ [d]) true); auto].
    unfold step, scan_exp. cbn [l_state l_num]. rewrite text_digit by auto.
    replace (isSpace (d + 48) || (d + 48 =? 0)) with false by (unfold isSpace; lia).
    replace (d + 48 - 48) with d by lia.
    rewrite add_exp by (auto; pose proof (decimal_prefix (xs ++ [d]) ds U' D2); lia).
    cbn [bind]. set (h' := hd 0 _). replace (isDigit h') with true; [reflexivity|].
    subst h'. fold (digits_text ds). destruct ds as [|y ds]; cbn [digits_text map app hd] in *; [auto|].
    inversion D2; subst. now rewrite text_digit by auto.
Qed.

Lemma emits_expdigits : forall us fs xs s i st r, xs <> [] -> digits_ok xs -> decimal xs < 2 ^ 63 ->
  digits_ok fs -> decimal fs < 10 ^ 18 -> isDigit (hd 0 r) = false ->
  exists q, emits (mkL LExp i st (builder us fs true [] s)) (digits_text xs ++ r)
    (TokFloat q) (mkL LNormal i st (builder us fs true xs s)) r
    /\ q == real_value us fs (if s then decimal xs else - decimal xs).
Proof.
  intros us fs xs s i st r N D B F FB W.
  destruct (float_emits us fs true xs s i st LExp F FB) as (q & Q1 & Q2); [discriminate|].
  exists q. split; auto. destruct (last_digit xs N D) as (a & d & -> & A & Dd).
  rewrite digits_text_app, <- app_assoc. eapply quiet_emits.
  - apply (quiet_exp a us fs [] true); auto.
    + constructor.
    + cbn [app]. pose proof (decimal_prefix a [d] A ltac:(repeat constructor; lia)). lia.
    + cbn. now apply text_digit.
  - cbn [digits_text map app]. apply emits_now. unfold step, scan_exp. cbn [l_state l_num].
    rewrite text_digit by auto. replace (isSpace (d + 48) || (d + 48 =? 0)) with false by (unfold isSpace; lia).
    replace (d + 48 - 48) with d by lia. rewrite add_exp by auto. cbn [bind].
    rewrite W. exact Q1.
Qed.

(** The exponent, from its letter. *)
Lemma emits_exponent : forall us fs e i st r state, state = LNumber \/ state = LFloat -> exponent_ok e ->
  digits_ok fs -> decimal fs < 10 ^ 18 -> isDigit (hd 0 r) = false ->
  exists q m', emits (mkL state i st (builder us fs false [] true)) (exponent_text e ++ r) (TokFloat q) m' r
    /\ l_state m' = LNormal /\ q == real_value us fs (exponent_value e).
Proof.
  intros us fs [[c s] xs] i st r state ST (C & N & D & B) F FB W.
  assert (CD : isDigit c = false) by (destruct C; subst; reflexivity).
  assert (C1 : ((c =? 69) || (c =? 101)) = true) by lia.
  assert (C2 : isSpace c || (c =? 0) = false) by (destruct C; subst; reflexivity).
  assert (C3 : (c =? 46) = false) by lia.
  assert (XD : isDigit (hd 0 (digits_text xs ++ r)) = true).
  { destruct xs as [|x xs]; [congruence|]. inversion D; subst. now apply text_digit. }
  assert (XS : hd 0 (digits_text xs ++ r) <> 43 /\ hd 0 (digits_text xs ++ r) <> 45)
    by (unfold isDigit in XD; lia).
  destruct s as [s|]; cbn [exponent_text exponent_value sign_text app].
  - destruct (emits_expdigits us fs xs s i st r N D B F FB W) as (q & Q1 & Q2).
    exists q, (mkL LNormal i st (builder us fs true xs s)). split; [|split; [reflexivity|]].
    + assert (X : exists k, (if s then codes "+" else codes "-") = [k] /\ (k =? 43) = s /\ ((k =? 43) || (k =? 45)) = true
                  /\ ((k =? 45) || (k =? 43)) = true /\ isSpace k || (k =? 0) = false).
      { destruct s; [exists 43|exists 45]; auto. }
      destruct X as (k & KE & K1 & K2 & K3 & K4). replace (if s then codes "+" else codes "-") with [k].
      cbn [app]. eapply emits_later with (m1 := mkL LExpSign i st (builder us fs false [] true)).
      * unfold step. cbn [l_state hd]. destruct ST as [->| ->].
        -- unfold scan_number. cbn [l_num]. rewrite CD. cbn [bind]. rewrite C3, C1, K2. reflexivity.
        -- unfold scan_float. cbn [l_num]. rewrite C2, CD. cbn [bind]. rewrite C1, K2. reflexivity.
      * eapply emits_later; [|exact Q1]. unfold step, scan_expsign. cbn [l_state]. rewrite K4, K3, XD, K1. reflexivity.
    + destruct s; exact Q2.
  - destruct (emits_expdigits us fs xs true i st r N D B F FB W) as (q & Q1 & Q2).
    exists q, (mkL LNormal i st (builder us fs true xs true)). split; [|split; [reflexivity|exact Q2]].
    eapply emits_later; [|exact Q1]. unfold step. cbn [l_state]. destruct ST as [->| ->].
    + unfold scan_number. cbn [l_num]. rewrite CD. cbn [bind]. rewrite C3, C1.
      replace ((hd 0 (digits_text xs ++ r) =? 43) || (hd 0 (digits_text xs ++ r) =? 45)) with false by lia.
      rewrite XD. reflexivity.
    + unfold scan_float. cbn [l_num]. rewrite C2, CD. cbn [bind]. rewrite C1.
      replace ((hd 0 (digits_text xs ++ r) =? 43) || (hd 0 (digits_text xs ++ r) =? 45)) with false by lia.
      rewrite XD. reflexivity.
Qed.

Lemma exponent_first : forall e r, exponent_ok e -> hd 0 (exponent_text e ++ r) = 69 \/ hd 0 (exponent_text e ++ r) = 101.
Proof. intros [[c s] xs] r (C & _). cbn. tauto. Qed.

Lemma emits_real : forall us fs e i st r, ltok_ok (LtReal us fs e) -> follows (LtReal us fs e) (hd 0 r) ->
  exists q m' r', emits (mkL LNumber i st (builder [] [] false [] true)) (ltok_text (LtReal us fs e) ++ r) (TokFloat q) m' r'
    /\ l_state m' = LNormal /\ ltok_denotes (LtReal us fs e) (TokFloat q) /\ (r' = r \/ (space (hd 0 r) /\ r' = tl r)).
Proof.
  intros us fs e i st r (N & U & B & HF & HE) W. cbn [ltok_text ltok_denotes].
  assert (Z0 : digits_ok []) by constructor.
  destruct fs as [fs|].
  - destruct HF as (F & FB & FL).
    assert (P0 : quiet (mkL LNumber i st (builder [] [] false [] true))
                  (digits_text us ++ 46 :: digits_text fs ++ match e with None => [] | Some e => exponent_text e end ++ r)
                  (mkL LFloat i st (builder us [] false [] true))
                  (digits_text fs ++ match e with None => [] | Some e => exponent_text e end ++ r)).
    { eapply quiet_trans; [apply (quiet_upper us []); auto|]. eapply quiet_step; [|apply quiet_refl]. reflexivity. }
    rewrite <- !app_assoc. cbn [app]. destruct e as [e|].
    + assert (W' : isDigit (hd 0 r) = false) by (apply not_digit_b; destruct fs; exact W).
      destruct (emits_exponent us fs e i st r LFloat) as (q & m' & Q1 & Q2 & Q3); auto.
      exists q, m', r. split; [|split; [auto|split; [exists q; auto|auto]]].
      eapply quiet_emits; [exact P0|]. eapply quiet_emits; [|exact Q1]. apply (quiet_lower fs us []); auto.
      * cbn [app]. assert (10 ^ 18 < 2 ^ 63) by reflexivity. lia.
      * right. now apply exponent_first.
    + cbn [app] in *. destruct fs as [|x fs].
      * cbn [follows] in W. destruct r as [|w r]; [exfalso; unfold space in W; cbn in W; lia|]. cbn [hd tl] in *.
        destruct (emits_nofraction us i st w r W) as (q & Q1 & Q2).
        eexists q, _, r. split; [eapply quiet_emits; [exact P0|exact Q1]|].
        split; [reflexivity|split; [exists q; auto|auto]].
      * destruct W as (W1 & W2 & W3). apply not_digit_b in W1.
        destruct (emits_fraction us (x :: fs) i st r) as (q & Q1 & Q2); auto; [discriminate|].
        eexists q, _, r. split; [eapply quiet_emits; [exact P0|exact Q1]|].
        split; [reflexivity|split; [exists q; auto|auto]].
  - destruct e as [e|]; [|congruence]. cbn [app]. rewrite <- !app_assoc. apply not_digit_b in W.
    destruct (emits_exponent us [] e i st r LNumber) as (q & m' & Q1 & Q2 & Q3); auto; [reflexivity|].
    exists q, m', r. split; [|split; [auto|split; [exists q; auto|auto]]].
    eapply quiet_emits; [|exact Q1]. apply (quiet_upper us []); auto. right. right. now apply exponent_first.
Qed.

Lemma emits_tok : forall t m r, ltok_ok t -> l_state m = LNormal -> follows t (hd 0 r) ->
  exists k m' r', emits m (ltok_text t ++ r) k m' r' /\ l_state m' = LNormal
    /\ ltok_denotes t k /\ (r' = r \/ (space (hd 0 r) /\ r' = tl r)).
Proof.
  intros t [state i st f] r T M W. cbn [l_state] in M. subst state.
  assert (NUM : forall ds s', ds <> [] -> digits_ok ds -> forall k m' r',
    emits (mkL LNumber i st (builder [] [] false [] true)) (digits_text ds ++ s') k m' r' ->
    emits (mkL LNormal i st f) (digits_text ds ++ s') k m' r').
  { intros [|d ds] s' N D k m' r' E; [congruence|]. inversion D; subst. cbn [digits_text map app] in *.
    eapply emits_first; [intros n _; now apply step_number|exact E]. }
  destruct t as [s|s|s|ds|us fs e|s|s].
  - destruct T as [T1 T2]. destruct W as [W1 W2]. cbn [ltok_text ltok_denotes]. eexists _, _, _. split; [now apply emits_word|]. split; [reflexivity|]. split; [|auto].
    unfold word. destruct (is_keyword s) eqn:K; [apply is_keyword_in in K; contradiction|reflexivity].
  - eexists _, _, _. cbn [ltok_text ltok_denotes app]. rewrite <- app_assoc. split.
    + eapply emits_later; [reflexivity|]. apply (emits_quoted s []). exact T.
    + split; [reflexivity|]. split; [reflexivity|auto].
  - destruct W as [W1 W2]. cbn [ltok_text ltok_denotes ltok_ok] in *. eexists _, _, _.
    split; [apply emits_word; auto; now apply keyword_identifier|]. split; [reflexivity|]. split; [|auto].
    unfold word. now apply is_keyword_in in T as ->.
  - destruct T as (T1 & T2 & T3). destruct W as (W1 & W2 & W3 & W4). cbn [ltok_text ltok_denotes]. eexists _, _, _.
    split; [apply NUM; auto; apply emits_int; auto; split; auto; now apply not_digit_b|]. split; [reflexivity|]. split; [reflexivity|auto].
  - destruct (emits_real us fs e i st r T W) as (q & m' & r' & E & A & B & C).
    destruct T as (T1 & T2 & _). cbn [ltok_text] in *. rewrite <- app_assoc in *.
    exists (TokFloat q), m', r'. auto.
  - eexists _, _, _. cbn [ltok_text ltok_denotes app]. rewrite <- app_assoc. split.
    + eapply emits_later; [reflexivity|]. apply (emits_string s []). exact T.
    + split; [reflexivity|]. split; [reflexivity|auto].
  - cbn [ltok_text ltok_denotes]. eexists _, _, _. split; [now apply emits_symbol|]. split; [reflexivity|]. split; [reflexivity|auto].
Qed.

Lemma denotes_not_eof : forall t k, ltok_denotes t k -> k <> TokEOF.
Proof. intros []; cbn; intros k H; try (destruct H as (q & -> & _)); congruence. Qed.

(** The first character of a token is not a space. *)
Lemma ltok_text_first : forall t, ltok_ok t -> exists c s, ltok_text t = c :: s /\ ~ space c.
Proof.
  intros t T. destruct t as [s|s|s|ds|us fs e|s|s]; cbn [ltok_text ltok_ok] in *.
  - destruct T as [(c & s' & [->| ->] & L & _) _]; eexists _, _; (split; [reflexivity|]); unfold letter, space in *; lia.
  - eexists _, _; (split; [reflexivity|]); unfold space; lia.
  - apply keyword_identifier in T as (c & s' & [->| ->] & L & _); eexists _, _; (split; [reflexivity|]); unfold letter, space in *; lia.
  - destruct T as (N & D & _). destruct ds as [|d ds]; [congruence|]. inversion D; subst.
    eexists _, _; (split; [reflexivity|]); unfold space; lia.
  - destruct T as (N & D & _). destruct us as [|d us]; [congruence|]. inversion D; subst.
    eexists _, _; (split; [reflexivity|]); unfold space; lia.
  - eexists _, _; (split; [reflexivity|]); unfold space; lia.
  - vm_compute in T. repeat destruct T as [<-|T]; try contradiction; eexists _, _; (split; [reflexivity|]); unfold space; lia.
Qed.

Lemma sep_after_space : forall l p, Forall sepitem_ok l -> program_ok p -> space (hd 0 (sep_text l ++ program_text p)) ->
  exists l', Forall sepitem_ok l' /\ tl (sep_text l ++ program_text p) = sep_text l' ++ program_text p.
Proof.
  intros l p L P W. destruct l as [|x l].
  - destruct p as [|[t l] p]; cbn [sep_text flat_map app program_text] in W; [unfold space in W; cbn in W; lia|].
    destruct P as (T & _). destruct (ltok_text_first t T) as (c & s & E & NS). cbn [fst] in W. rewrite E in W. now elim NS.
  - inversion L; subst. destruct x as [c|t|t].
    + exists l. split; auto.
    + unfold space in W. cbn in W. lia.
    + unfold space in W. cbn in W. lia.
Qed.

Lemma lex_program : forall p m seps fuel, program_ok p -> l_state m = LNormal -> Forall sepitem_ok seps ->
  (List.length p < fuel)%nat ->
  exists ks, lex_loop fuel m (sep_text seps ++ program_text p) = Ok (ks ++ [TokEOF])
    /\ Forall2 ltok_denotes (program_tokens p) ks.
Proof.
  induction p as [|[t l] p IH]; intros m seps fuel P M SO F; (destruct fuel as [|fuel]; [lia|]).
  - exists []. split; [|constructor]. cbn [program_text flat_map]. unfold lex_loop; fold lex_loop.
    destruct m as [state i st f]. cbn in M. subst state.
    rewrite (quiet_lex _ _ _ _ (quiet_sep seps [] i st f SO)). reflexivity.
  - destruct P as (T & L & C & P'). cbn [program_text flat_map fst snd]. fold (program_text p).
    rewrite <- app_assoc.
    destruct (emits_tok t m (sep_text l ++ program_text p) T M C) as (k & m' & r' & E & M' & D & R).
    assert (E' : emits m (sep_text seps ++ ltok_text t ++ sep_text l ++ program_text p) k m' r').
    { eapply quiet_emits; [|exact E]. destruct m as [state i st f]. cbn in M. subst state. now apply quiet_sep. }
    unfold lex_loop; fold lex_loop. rewrite (emits_lex _ _ _ _ _ E'). cbn [bind].
    assert (R' : exists seps', Forall sepitem_ok seps' /\ r' = sep_text seps' ++ program_text p).
    { destruct R as [->|[R ->]]; [exists l; auto|now apply sep_after_space]. }
    destruct R' as (seps' & SO' & ->). cbn [List.length] in F.
    destruct (IH m' seps' fuel P' M' SO') as (ks & K1 & K2); [lia|]. rewrite K1. cbn [bind].
    exists (k :: ks). split.
    + pose proof (denotes_not_eof t k D). destruct k; try reflexivity. congruence.
    + constructor; auto.
Qed.

Lemma program_length : forall p, program_ok p -> (List.length p <= List.length (program_text p))%nat.
Proof.
  induction p as [|[t l] p IH]; intros P; [cbn; lia|]. destruct P as (T & L & C & P').
  cbn [program_text flat_map List.length fst snd]. fold (program_text p). rewrite !app_length.
  destruct (ltok_text_first t T) as (c & s & -> & _). cbn [List.length].
  specialize (IH P'). lia.
Qed.

Lemma lex_correct : forall seps p, Forall sepitem_ok seps -> program_ok p ->
  exists ks, lex (sep_text seps ++ program_text p) = Ok (ks ++ [TokEOF])
    /\ Forall2 ltok_denotes (program_tokens p) ks.
Proof.
  intros seps p S P. unfold lex. apply lex_program; auto.
  rewrite app_length. pose proof (program_length p P). lia.
Qed.

(** Every text is lexed: each step consumes a character, and past the end there
    is a token at once or after two steps. *)
Lemma i64_fuel : forall z, i64 z <> NoFuel.
Proof. intros z. unfold i64. destruct ((- 2 ^ 63 <=? z) && (z <? 2 ^ 63)); discriminate. Qed.
Lemma bind_fuel : forall A B (x : res A) (f : A -> res B), x <> NoFuel -> (forall a, f a <> NoFuel) -> bind x f <> NoFuel.
Proof. intros A B [a| |] f H1 H2; cbn; auto; congruence. Qed.
Lemma il_fuel : forall a b, il_add a b <> NoFuel.
Proof. intros a b. apply bind_fuel; [apply i64_fuel|intros; apply i64_fuel]. Qed.
Lemma normalizer_fuel : forall fuel n l, 0 < n < 2 ^ 63 -> 2 ^ 63 <= n * 10 ^ Z.of_nat fuel -> normalizer fuel n l <> NoFuel.
Proof.
  induction fuel as [|fuel IH]; intros n l N B; unfold normalizer; fold normalizer.
  - change (10 ^ Z.of_nat 0) with 1 in B. lia.
  - destruct (n <=? l); [|discriminate]. unfold i64. destruct ((- 2 ^ 63 <=? n * 10) && (n * 10 <? 2 ^ 63)) eqn:E; [|discriminate].
    cbn [bind]. apply IH; [lia|]. rewrite Nat2Z.inj_succ, Z.pow_succ_r in B by lia. lia.
Qed.
Lemma fl_get_fuel : forall f, fl_get f <> NoFuel.
Proof.
  intros f. apply bind_fuel; [|discriminate]. apply normalizer_fuel; [lia|]. vm_compute. discriminate.
Qed.
Lemma float_token_fuel : forall m, float_token m <> NoFuel.
Proof. intros m. apply bind_fuel; [apply fl_get_fuel|discriminate]. Qed.

Ltac crush :=
  repeat match goal with
  | |- Ok _ <> NoFuel => discriminate
  | |- float_token _ <> NoFuel => apply float_token_fuel
  | |- bind _ _ <> NoFuel => apply bind_fuel; [|intros]
  | |- fl_addUpper _ _ <> NoFuel => apply bind_fuel; [apply il_fuel|discriminate]
  | |- fl_addExp _ _ <> NoFuel => apply bind_fuel; [apply il_fuel|discriminate]
  | |- fl_addLower _ _ <> NoFuel => apply bind_fuel; [apply il_fuel|intros; apply bind_fuel; [|discriminate]]
  | |- assert_ok ?b <> NoFuel => destruct b; discriminate
  | |- (if ?b then _ else _) <> NoFuel => destruct b
  | |- (let _ := _ in _) <> NoFuel => cbv zeta
  end.
Lemma step_fuel : forall m c n, step m c n <> NoFuel.
Proof.
  intros m c n. unfold step. destruct (l_state m);
    unfold scan_normal, scan_ident, scan_qident, scan_number, scan_float, scan_expsign, scan_exp, scan_string,
      scan_line, scan_block, scan_symbol, scan_second, scan_ident, scan_number; crush.
Qed.

(** Past the end of the text there is a token within three steps. *)
Lemma end_state : forall m, (l_state m = LNormal \/ l_state m = LEnd) ->
  forall fuel, exists m', lex_token (S fuel) m [] = Ok (TokEOF, m', []).
Proof.
  intros [state i st f] H fuel. cbn in H. destruct H as [->| ->]; eexists; reflexivity.
Qed.
Lemma token_now : forall m k, (forall m', step m 0 0 <> Ok (m', None)) -> lex_token (S k) m [] <> NoFuel.
Proof.
  intros m k H. cbn [lex_token hd tl]. pose proof (step_fuel m 0 0).
  destruct (step m 0 0) as [[m' [t|]]| |] eqn:E; cbn [bind]; try congruence.
Qed.
Lemma end_token : forall m, lex_token 3 m [] <> NoFuel.
Proof.
  intros [state i st f].
  destruct state; try discriminate; apply token_now; intros m'; unfold step; cbn [l_state].
  - unfold scan_float. change (isSpace 0 || (0 =? 0)) with true. cbv iota. unfold float_token. cbn [l_num].
    destruct (fl_get f); cbn [bind]; congruence.
  - unfold scan_exp. change (isSpace 0 || (0 =? 0)) with true. cbv iota. unfold float_token. cbn [l_num].
    destruct (fl_get f); cbn [bind]; congruence.
Qed.
Lemma lex_token_fuel : forall r m k, lex_token (List.length r + (3 + k)) m r <> NoFuel.
Proof.
  assert (MONO : forall fuel m r k, lex_token fuel m r <> NoFuel -> lex_token (fuel + k) m r <> NoFuel).
  { induction fuel as [|fuel IH]; intros m r k H; [cbn in H; congruence|].
    cbn [Nat.add lex_token] in *. destruct (step m (hd 0 r) (hd 0 (tl r))) as [[m' [t|]]| |]; cbn [bind] in *; auto. }
  induction r as [|c r IH]; intros m k.
  - cbn [List.length]. change (0 + (3 + k))%nat with (3 + k)%nat. apply MONO, end_token.
  - cbn [List.length]. change (S (List.length r) + (3 + k))%nat with (S (List.length r + (3 + k))).
    cbn [lex_token hd tl]. pose proof (step_fuel m c (hd 0 r)).
    destruct (step m c (hd 0 r)) as [[m' [t|]]| |]; cbn [bind]; try congruence.
Qed.
Lemma lex_token_rest : forall fuel m r t m' r', lex_token fuel m r = Ok (t, m', r') ->
  (List.length r' <= pred (List.length r))%nat.
Proof.
  induction fuel as [|fuel IH]; intros m r t m' r' H; [discriminate|]. cbn [lex_token] in H.
  destruct (step m (hd 0 r) (hd 0 (tl r))) as [[m1 [k|]]| |]; cbn [bind] in H; try discriminate.
  - inversion H; subst. destruct r; cbn; lia.
  - apply IH in H. destruct r; cbn in *; lia.
Qed.

Ltac peel H :=
  repeat match type of H with
  | bind ?x _ = _ => destruct x; cbn [bind] in H; try discriminate H
  | (if ?b then _ else _) = _ => destruct b; try discriminate H
  | (let _ := _ in _) = _ => cbv zeta in H
  end.
Lemma step_token_state : forall m c n m' t, step m c n = Ok (m', Some t) ->
  l_state m' = LNormal \/ l_state m' = LEnd.
Proof.
  intros m c n m' t H. unfold step in H. destruct (l_state m) eqn:E;
    unfold scan_normal, scan_ident, scan_qident, scan_number, scan_float, scan_expsign, scan_exp, scan_string,
      scan_line, scan_block, scan_symbol, scan_second, scan_ident, scan_number, float_token in H;
    peel H; try discriminate H; inversion H; subst; cbn; auto.
Qed.
Lemma lex_token_state : forall fuel m r t m' r', lex_token fuel m r = Ok (t, m', r') ->
  l_state m' = LNormal \/ l_state m' = LEnd.
Proof.
  induction fuel as [|fuel IH]; intros m r t m' r' H; [discriminate|]. cbn [lex_token] in H.
  destruct (step m (hd 0 r) (hd 0 (tl r))) as [[m1 [k|]]| |] eqn:E; cbn [bind] in H; try discriminate.
  - inversion H; subst. eapply step_token_state; eauto.
  - eauto.
Qed.
Lemma lex_loop_fuel : forall fuel m r, (List.length r < fuel)%nat -> (l_state m = LNormal \/ l_state m = LEnd) ->
  lex_loop fuel m r <> NoFuel /\ forall l, lex_loop fuel m r = Ok l -> exists ks, l = ks ++ [TokEOF] /\ ~ In TokEOF ks.
Proof.
  induction fuel as [|fuel IH]; intros m r F M; [lia|]. unfold lex_loop; fold lex_loop.
  pose proof (lex_token_fuel r m 1) as LF. change (3 + 1)%nat with 4%nat in LF.
  destruct (lex_token (List.length r + 4) m r) as [[[t m'] r']| |] eqn:E; cbn [bind]; try (split; [congruence|congruence]).
  assert (K : t = TokEOF \/ (t <> TokEOF /\ lex_loop fuel m' r' <> NoFuel /\
     forall l, lex_loop fuel m' r' = Ok l -> exists ks, l = ks ++ [TokEOF] /\ ~ In TokEOF ks)).
  { destruct r as [|c r].
    - cbn [List.length Nat.add] in E. destruct (end_state m M 3) as (m2 & E2). left. congruence.
    - assert (D : t = TokEOF \/ t <> TokEOF) by (destruct t; (left; congruence) || (right; congruence)).
      destruct D as [D|D]; [auto|right]. split; auto. apply IH.
      + apply lex_token_rest in E. cbn in *. lia.
      + eapply lex_token_state; eauto. }
  destruct K as [->|(K0 & K1 & K2)].
  - split; [discriminate|]. intros l H. exists []. split; [cbn; congruence|auto].
  - destruct t; try congruence; (destruct (lex_loop fuel m' r') as [l'| |] eqn:L; cbn [bind]; split; try congruence;
      intros l H; inversion H; subst; destruct (K2 l' eq_refl) as (ks & -> & NI);
      eexists (_ :: ks); split; [reflexivity|]; intros [X|X]; [congruence|auto]).
Qed.
Lemma lex_total : forall s, lex s <> NoFuel /\ forall l, lex s = Ok l -> exists ks, l = ks ++ [TokEOF] /\ ~ In TokEOF ks.
Proof. intros s. unfold lex. apply lex_loop_fuel; [lia|]. left. reflexivity. Qed.
