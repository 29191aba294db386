(** C43, C58: the lexer of Modelica. *)
From Coq Require Import ZArith QArith List Bool String SpecFloat Lia ZifyBool.
From Verif Require Import Result SubscriptModel SubscriptProofs LexerModel LexerSpec FloatLexerProofs LexerProofs.
Import ListNotations.
Local Open Scope string_scope.
Local Open Scope list_scope.
Local Open Scope Z_scope.

(** ** C43: numeric literals *)

(** Feeding digits to the integer builder gives the number they denote, or an
    int64_t overflow when it does not fit; nothing else. *)
Theorem C43_integer : forall ds, digits_ok ds ->
  fold_left (fun v d => x <- v ;; il_add x d) ds (Ok 0)
  = if decimal ds <? 2 ^ 63 then Ok (decimal ds) else Bad.
Proof.
  induction ds as [|d ds IH] using rev_ind; intros D; [reflexivity|].
  apply Forall_app in D as [D1 D2]. inversion D2; subst. rewrite fold_left_app, IH by auto. cbn [fold_left].
  rewrite decimal_snoc. pose proof (decimal_bound ds D1).
  destruct (decimal ds <? 2 ^ 63) eqn:E; cbn [bind].
  - unfold il_add, i64. destruct (decimal ds * 10 + d <? 2 ^ 63) eqn:B.
    + replace ((- 2 ^ 63 <=? decimal ds * 10) && (decimal ds * 10 <? 2 ^ 63)) with true by lia. cbn [bind].
      replace ((- 2 ^ 63 <=? decimal ds * 10 + d) && (decimal ds * 10 + d <? 2 ^ 63)) with true by lia. reflexivity.
    + destruct ((- 2 ^ 63 <=? decimal ds * 10) && (decimal ds * 10 <? 2 ^ 63)); [|reflexivity]. cbn [bind].
      replace ((- 2 ^ 63 <=? decimal ds * 10 + d) && (decimal ds * 10 + d <? 2 ^ 63)) with false by lia. reflexivity.
  - replace (decimal ds * 10 + d <? 2 ^ 63) with false by lia. reflexivity.
Qed.
Print Assumptions C43_integer.
Example C43_integer_example :
  decimal [9; 2; 2; 3; 3; 7; 2; 0; 3; 6; 8; 5; 4; 7; 7; 5; 8; 0; 7] = 2 ^ 63 - 1
  /\ fold_left (fun v d => x <- v ;; il_add x d) [9; 2; 2; 3; 3; 7; 2; 0; 3; 6; 8; 5; 4; 7; 7; 5; 8; 0; 8] (Ok 0) = Bad.
Proof. split; reflexivity. Qed.

(** Full statement: feeding the digits of a real literal gives the number it
    denotes. Proved of the exact value that is computed (the double rounding of
    the additions, divisions and powers is left out, see
    [C43_rounding_refuted]) and for parts that fit the int64_t counters (see
    [C43_digits_refuted]). *)
Theorem C43_real_partial : forall us fs xs (sign : option bool),
  digits_ok us -> digits_ok fs -> digits_ok xs -> (sign = None -> xs = []) ->
  decimal us < 2 ^ 63 -> decimal fs < 10 ^ 18 -> Z.of_nat (List.length fs) < 2 ^ 31 -> decimal xs < 2 ^ 63 ->
  exists q,
    (f1 <- fold_left (fun f d => x <- f ;; fl_addUpper x d) us (Ok fl_reset) ;;
     f2 <- fold_left (fun f d => x <- f ;; fl_addLower x d) fs (Ok f1) ;;
     f3 <- match sign with
           | None => Ok f2
           | Some s => fold_left (fun f d => x <- f ;; fl_addExp x d) xs (Ok (fl_setSign f2 s))
           end ;;
     fl_get f3) = Ok q
    /\ (q == inject_Z (decimal (us ++ fs))
             * 10 ^ ((match sign with Some false => - decimal xs | _ => decimal xs end) - Z.of_nat (List.length fs)))%Q.
Proof.
  intros us fs xs sign U F X SX UB FB FL XB.
  assert (B63 : 10 ^ 18 < 2 ^ 63) by reflexivity.
  assert (H1 : forall b a, digits_ok a -> digits_ok b -> decimal (a ++ b) < 2 ^ 63 ->
    fold_left (fun f d => x <- f ;; fl_addUpper x d) b (Ok (builder a [] false [] true)) = Ok (builder (a ++ b) [] false [] true)).
  { induction b as [|d b IH]; intros a Ha Hb HB; cbn [fold_left]; [now rewrite app_nil_r|].
    inversion Hb; subst. replace (a ++ d :: b) with ((a ++ [d]) ++ b) in * by now rewrite <- app_assoc.
    assert (A' : digits_ok (a ++ [d])) by (apply Forall_app; auto). pose proof (decimal_prefix (a ++ [d]) b A' H2).
    cbn [bind]. rewrite add_upper by (auto; lia). now apply IH. }
  assert (H2 : forall b a, digits_ok a -> digits_ok b -> decimal (a ++ b) < 2 ^ 63 -> Z.of_nat (List.length (a ++ b)) < 2 ^ 31 ->
    fold_left (fun f d => x <- f ;; fl_addLower x d) b (Ok (builder us a false [] true)) = Ok (builder us (a ++ b) false [] true)).
  { induction b as [|d b IH]; intros a Ha Hb HB HL; cbn [fold_left]; [now rewrite app_nil_r|].
    inversion Hb; subst. replace (a ++ d :: b) with ((a ++ [d]) ++ b) in * by now rewrite <- app_assoc.
    assert (A' : digits_ok (a ++ [d])) by (apply Forall_app; auto). pose proof (decimal_prefix (a ++ [d]) b A' H3).
    cbn [bind]. rewrite add_lower by (auto; rewrite ?app_length in *; lia). now apply IH. }
  assert (H3 : forall b a s, digits_ok a -> digits_ok b -> decimal (a ++ b) < 2 ^ 63 ->
    fold_left (fun f d => x <- f ;; fl_addExp x d) b (Ok (builder us fs true a s)) = Ok (builder us fs true (a ++ b) s)).
  { induction b as [|d b IH]; intros a s Ha Hb HB; cbn [fold_left]; [now rewrite app_nil_r|].
    inversion Hb; subst. replace (a ++ d :: b) with ((a ++ [d]) ++ b) in * by now rewrite <- app_assoc.
    assert (A' : digits_ok (a ++ [d])) by (apply Forall_app; auto). pose proof (decimal_prefix (a ++ [d]) b A' H4).
    cbn [bind]. rewrite add_exp by (auto; lia). now apply IH. }
  assert (N : digits_ok []) by constructor.
  change fl_reset with (builder [] [] false [] true).
  rewrite (H1 us []) by auto. cbn [bind app]. rewrite (H2 fs []) by (auto; cbn [app]; lia). cbn [bind app].
  destruct sign as [s|].
  - rewrite set_sign, (H3 xs []) by auto. cbn [bind app].
    destruct (fl_get_value us fs true xs s F FB) as (q & Q1 & Q2); [discriminate|].
    exists q. split; [exact Q1|]. destruct s; exact Q2.
  - cbn [bind]. rewrite (SX eq_refl). destruct (fl_get_value us fs false [] true F FB) as (q & Q1 & Q2); [auto|].
    exists q. auto.
Qed.
Print Assumptions C43_real_partial.
Example C43_real_example :
  exists q, lex (codes "12.0305e-7 ") = Ok [TokFloat q; TokEOF] /\ q == 120305 # 100000000000.
Proof. eexists. split; vm_compute; reflexivity. Qed.

(** Nineteen digits after the point: the computation overflows an int64_t
    although the literal denotes a number below 4. *)
Theorem C43_digits_refuted : exists us fs, digits_ok us /\ digits_ok fs
  /\ (real_value us fs 0 < 4)%Q
  /\ lex (ltok_text (LtReal us (Some fs) None) ++ codes " ") = Bad.
Proof.
  exists [3], [1; 4; 1; 5; 9; 2; 6; 5; 3; 5; 8; 9; 7; 9; 3; 2; 3; 8; 4].
  split; [repeat constructor; lia|]. split; [repeat constructor; lia|]. split; vm_compute; reflexivity.
Qed.
Print Assumptions C43_digits_refuted.

(** In binary64 arithmetic the result is not always a double nearest to the
    number: 1.14 is computed as 1 + 0.14 and is off by one unit. *)
Theorem C43_rounding_refuted : exists us fs f d,
  (f1 <- fold_left (fun f d => x <- f ;; fl_addUpper x d) us (Ok fl_reset) ;;
   fold_left (fun f d => x <- f ;; fl_addLower x d) fs (Ok f1)) = Ok f
  /\ real_value us fs 0 == 114 # 100
  /\ fl_double f = Ok (Some d) /\ is_double d
  /\ ~ nearest_double d (real_value us fs 0).
Proof.
  exists [1], [1; 4], (mkF 1 14 false 0 true false 0). eexists.
  split; [reflexivity|]. split; [vm_compute; reflexivity|]. split; [vm_compute; reflexivity|].
  split; [vm_compute; reflexivity|].
  intros (_ & v & V & H).
  specialize (H (S754_finite false 5134103575202365 (-52)) _ eq_refl eq_refl).
  cbn [double_value] in V. inversion V; subst v. vm_compute in H. apply H. reflexivity.
Qed.
Print Assumptions C43_rounding_refuted.

(** ** C58: tokens *)

(** Full statement: lexing gives the tokens that are written. Proved when no
    token runs into the next character ([follows]), which for the numbers that end with their
    decimal point excludes all but white space (see [C58_adjacent_refuted]),
    and for numbers that fit (see C43). *)
Theorem C58_tokens_partial : forall (seps : list sepitem) (p : program),
  Forall sepitem_ok seps -> program_ok p ->
  exists ks, lex (sep_text seps ++ program_text p) = Ok (ks ++ [TokEOF])
    /\ Forall2 ltok_denotes (program_tokens p) ks.
Proof. exact lex_correct. Qed.
Print Assumptions C58_tokens_partial.
Example C58_tokens_example :
  let p := [(LtKey (codes "model"), [SepSpace 32]); (LtIdent (codes "$x1"), [SepLine (codes " a // b")]);
            (LtSym (codes ":="), []); (LtReal [2] (Some []) None, [SepSpace 10]); (LtSym (codes ".*"), []);
            (LtReal [7] None (Some (101, Some false, [0; 3])), [SepBlock (codes "* c /* d **")]);
            (LtQuoted (codes "a'b\c"), []); (LtString (codes "say ""hi"""), []); (LtInt [0; 4; 2], [])] in
  program_ok p
  /\ exists a b, lex (program_text p) = Ok [TokKey (codes "model"); TokIdent (codes "$x1"); TokSym (codes ":=");
        TokFloat a; TokSym (codes ".*"); TokFloat b; TokIdent (codes "a'b\c"); TokString (codes "say ""hi""");
        TokInt 42; TokEOF].
Proof.
  cbv zeta. split.
  - assert (K : forall s, is_keyword s = false -> ~ In s modelica_keywords)
      by (intros s H I; apply is_keyword_in in I; congruence).
    assert (Z0 : forall l, forallb (fun c => negb (c =? 0)) l = true -> Forall (fun c => c <> 0) l).
    { intros l H. apply Forall_forall. rewrite forallb_forall in H. intros x I. specialize (H x I). lia. }
    assert (SY : forall s c, existsb (text_eqb (s ++ [c])) symbols = false -> existsb (text_eqb (s ++ [c])) [codes "//"; codes "/*"] = false ->
                 follows (LtSym s) c).
    { intros s c H1 H2. split; intros I; [assert (X : existsb (text_eqb (s ++ [c])) symbols = true)
        |assert (X : existsb (text_eqb (s ++ [c])) [codes "//"; codes "/*"] = true)]; try congruence;
        apply existsb_exists; exists (s ++ [c]); split; auto; now apply text_eqb_eq. }
    cbn [program_ok].
    split; [vm_compute; tauto|]. split; [repeat constructor; cbn; unfold space; lia|].
    split; [cbn; unfold letter, digit; lia|].
    split; [split; [|apply K; reflexivity]; exists 120, [49]; split; [right; reflexivity|];
      split; [unfold letter; lia|repeat constructor; unfold digit; lia]|].
    split; [repeat constructor; cbn; lia|]. split; [cbn; unfold letter, digit; lia|].
    split; [vm_compute; tauto|]. split; [constructor|]. split; [apply SY; reflexivity|].
    split; [cbn; repeat split; try discriminate; try (repeat constructor; lia)|].
    split; [repeat constructor; cbn; unfold space; lia|]. split; [cbn; unfold space; lia|].
    split; [vm_compute; tauto|]. split; [constructor|]. split; [apply SY; reflexivity|].
    split; [cbn; repeat split; try discriminate; try (repeat constructor; lia); lia|].
    split.
    { constructor; [|constructor]. split; [apply Z0; reflexivity|]. split; [|vm_compute; discriminate].
      intros a b E. vm_compute in E.
      repeat (destruct a as [|? a]; [discriminate E|cbn [app] in E; first [discriminate E|injection E as ? E]]). }
    split; [cbn; unfold digit; lia|].
    split; [apply Z0; reflexivity|]. split; [constructor|]. split; [exact I|].
    split; [apply Z0; reflexivity|]. split; [constructor|]. split; [exact I|].
    split; [cbn; repeat split; try discriminate; repeat constructor; lia|]. split; [constructor|].
    split; [cbn; unfold digit; lia|exact I].
  - eexists _, _. vm_compute. reflexivity.
Qed.

(** Every text is lexed to the end: the only failure is the int64_t overflow of
    a number, and the end of file comes once, last. *)
Theorem C58_total : forall s,
  (lex s = Bad \/ exists ks, lex s = Ok (ks ++ [TokEOF]) /\ ~ In TokEOF ks) /\ lex s <> NoFuel.
Proof.
  intros s. destruct (lex_total s) as [N L]. split; auto. destruct (lex s) as [l| |]; [|auto|congruence].
  right. destruct (L l eq_refl) as (ks & -> & H). eauto.
Qed.
Print Assumptions C58_total.
Example C58_total_example : lex (codes "x = 'a") = Ok [TokIdent (codes "x"); TokSym (codes "="); TokErr; TokEOF].
Proof. vm_compute. reflexivity. Qed.

(** Without white space: the character after "1." is dropped, so that the two
    texts  1.;  and  1.  have the same tokens; and the comment  /*/  is closed
    by its own opening. *)
Theorem C58_adjacent_refuted :
  (exists q q', lex (codes "1.; ") = Ok [TokFloat q; TokEOF] /\ lex (codes "1. ") = Ok [TokFloat q; TokEOF]
             /\ lex (codes "1.0; ") = Ok [TokFloat q'; TokSym (codes ";"); TokEOF] /\ q == q')
  /\ lex (codes "/*/ x */") = Ok [TokIdent (codes "x"); TokSym (codes "*"); TokSym (codes "/"); TokEOF].
Proof. split; [eexists _, _; split; [|split; [|split]]|]; vm_compute; reflexivity. Qed.
Print Assumptions C58_adjacent_refuted.

(** Two different identifiers of Modelica, x and 'x', and a quoted keyword give
    the same identifier tokens as their contents. *)
Theorem C58_quoted_refuted :
  lex (codes "'x' ") = lex (codes "x ")
  /\ lex (codes "'end' ") = Ok [TokIdent (codes "end"); TokEOF].
Proof. split; vm_compute; reflexivity. Qed.
Print Assumptions C58_quoted_refuted.
