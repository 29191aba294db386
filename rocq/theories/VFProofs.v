(** Proofs about the variable filter. *)
From Coq Require Import ZArith List Bool String Lia ZifyBool.
From Verif Require Import RangeModel MDRangeModel Spec Result BoxSetModel BoxSetProofs SubscriptModel LexerModel LexerSpec FloatLexerProofs
  LexerProofs VFModel VFSpec.
Import ListNotations.
Local Open Scope string_scope.
Local Open Scope list_scope.
Local Open Scope Z_scope.

(** ** Lexing *)

Inductive vemits : vmach -> text -> vtoken -> vmach -> text -> Prop :=
| vemits_now : forall m c r t m', vstep m c (hd 0 r) = Ok (m', Some t) -> vemits m (c :: r) t m' r
| vemits_later : forall m c r t m1 m' r', vstep m c (hd 0 r) = Ok (m1, None) ->
    vemits m1 r t m' r' -> vemits m (c :: r) t m' r'.
Lemma vemits_lex : forall m r t m' r', vemits m r t m' r' -> forall k,
  vlex_token (List.length r + k) m r = Ok (t, m', r').
Proof.
  induction 1 as [m c r t m' S|m c r t m1 m' r' S _ IH]; intros k;
    cbn [List.length Nat.add vlex_token hd tl]; rewrite S; cbn [bind]; auto.
Qed.

Lemma vspaces : forall sp i x n r t m' r', Forall space sp ->
  vemits (mkV VNormal i x n) r t m' r' -> vemits (mkV VNormal i x n) (sp ++ r) t m' r'.
Proof.
  induction sp as [|c sp IH]; intros i x n r t m' r' S E; auto. inversion S; subst. cbn [app].
  eapply vemits_later; [|apply IH; eauto]. unfold vstep, vscan_normal. cbn [v_state].
  rewrite space_isSpace by auto. reflexivity.
Qed.
Lemma vspaces_eof : forall sp i x n k, Forall space sp ->
  exists m', vlex_token (List.length sp + S k) (mkV VNormal i x n) sp = Ok (VEOF, m', []).
Proof.
  induction sp as [|c sp IH]; intros i x n k S; [eexists; reflexivity|]. inversion S; subst.
  destruct (IH i x n k H2) as (m' & E). exists m'.
  cbn [List.length Nat.add vlex_token hd tl]. unfold vstep at 1, vscan_normal at 1. cbn [v_state].
  rewrite space_isSpace by auto. exact E.
Qed.

Definition vword (s : text) : vtoken := if text_eqb s (codes "der") then VDer else VIdent s.
Lemma vemits_id : forall s c acc x n r, Forall (fun x => letter x \/ digit x \/ x = 46) s ->
  ~ letter (hd 0 r) -> ~ digit (hd 0 r) -> hd 0 r <> 46 ->
  vemits (mkV VId acc x n) (c :: s ++ r) (vword (acc ++ c :: s)) (mkV VNormal (acc ++ c :: s) x n) r.
Proof.
  induction s as [|y s IH]; intros c acc x n r H W1 W2 W3; cbn [app].
  - apply vemits_now. unfold vstep, vscan_id. cbn [v_state v_ident v_regex v_num].
    rewrite not_digit_b, not_letter_b by auto. replace (hd 0 r =? 46) with false by lia. reflexivity.
  - inversion H; subst. eapply vemits_later.
    + unfold vstep, vscan_id. cbn [v_state v_ident v_regex v_num hd].
      assert (E : negb (isDigit y) && negb (isNonDigit y) && negb (y =? 46) = false).
      { destruct H2 as [L|[D|D]]; [apply letter_b in L; rewrite L|apply digit_b in D; rewrite D|]; lia. }
      rewrite E. reflexivity.
    + replace (acc ++ c :: y :: s) with ((acc ++ [c]) ++ y :: s) by now rewrite <- app_assoc. now apply IH.
Qed.
Lemma vemits_first : forall m m0 c r t m' r', (forall n, vstep m c n = vstep m0 c n) ->
  vemits m0 (c :: r) t m' r' -> vemits m (c :: r) t m' r'.
Proof.
  intros m m0 c r t m' r' H E. inversion E; subst.
  - apply vemits_now. now rewrite H.
  - eapply vemits_later; eauto. now rewrite H.
Qed.
Lemma vstep_id : forall c nxt i x n, letter c -> vstep (mkV VNormal i x n) c nxt = vstep (mkV VId [] x n) c nxt.
Proof.
  intros c nxt i x n L. unfold vstep, vscan_normal. cbn [v_state v_regex v_num].
  replace (isSpace c) with false by (unfold isSpace, letter in *; lia). apply letter_b in L. now rewrite L.
Qed.
Lemma vstep_num : forall d nxt i x n, 0 <= d <= 9 -> vstep (mkV VNormal i x n) (d + 48) nxt = vstep (mkV VNum i x 0) (d + 48) nxt.
Proof.
  intros d nxt i x n L. unfold vstep, vscan_normal. cbn [v_state v_regex v_ident].
  replace (isSpace (d + 48)) with false by (unfold isSpace; lia).
  replace (isNonDigit (d + 48)) with false by (unfold isNonDigit; lia). now rewrite text_digit.
Qed.
Lemma vemits_num : forall ds us d i x r, digits_ok us -> digits_ok ds -> 0 <= d <= 9 -> decimal (us ++ d :: ds) < 2 ^ 63 ->
  ~ digit (hd 0 r) ->
  vemits (mkV VNum i x (decimal us)) (d + 48 :: digits_text ds ++ r) (VInt (decimal (us ++ d :: ds)))
    (mkV VNormal i x (decimal (us ++ d :: ds))) r.
Proof.
  induction ds as [|e ds IH]; intros us d i x r U D Hd B W.
  - cbn [digits_text map app]. apply vemits_now. unfold vstep, vscan_num. cbn [v_state v_ident v_regex v_num].
    rewrite text_digit by auto. replace (d + 48 - 48) with d by lia. rewrite decimal_snoc in *.
    pose proof (decimal_bound us U). rewrite il_add_ok by lia. cbn [bind].
    rewrite not_digit_b by auto. reflexivity.
  - inversion D as [|e' ds' D1 D2]; subst. replace (us ++ d :: e :: ds) with ((us ++ [d]) ++ e :: ds) in * by now rewrite <- app_assoc.
    assert (U' : digits_ok (us ++ [d])) by (apply Forall_app; auto).
    eapply vemits_later; [|apply (IH (us ++ [d])); auto].
    unfold vstep, vscan_num. cbn [v_state v_ident v_regex v_num digits_text map app hd].
    rewrite !text_digit by auto. replace (d + 48 - 48) with d by lia.
    pose proof (decimal_bound us U). pose proof (decimal_prefix (us ++ [d]) (e :: ds) U' D).
    rewrite decimal_snoc in *. rewrite il_add_ok by lia. reflexivity.
Qed.
Lemma vemits_regex : forall s acc i n r, Forall (fun c => c <> 0 /\ c <> 47) s ->
  vemits (mkV VRgx i acc n) (s ++ 47 :: r) (VRegex (acc ++ s)) (mkV VNormal i (acc ++ s) n) r.
Proof.
  induction s as [|c s IH]; intros acc i n r H; cbn [app].
  - rewrite app_nil_r. now apply vemits_now.
  - inversion H; subst. replace (acc ++ c :: s) with ((acc ++ [c]) ++ s) by now rewrite <- app_assoc.
    eapply vemits_later; [|apply IH; auto]. unfold vstep, vscan_regex. cbn [v_state].
    replace (c =? 47) with false by lia. replace (c =? 0) with false by lia. reflexivity.
Qed.

Lemma vemits_tok : forall t i x n r, wtok_ok t -> wfollows t (hd 0 r) ->
  exists i' x' n', vemits (mkV VNormal i x n) (wtok_text t ++ r) (wtok_token t) (mkV VNormal i' x' n') r.
Proof.
  intros t i x n r T W. destruct t as [ds|s| |s|c]; cbn [wtok_ok wtok_text wtok_token wfollows] in *.
  - destruct T as (N & D & B). destruct ds as [|d ds]; [congruence|]. inversion D; subst.
    eexists _, _, _. cbn [digits_text map app]. eapply vemits_first; [intros; now apply vstep_num|].
    apply (vemits_num ds []); auto. constructor.
  - destruct T as (ND & c & s' & -> & L & A). destruct W as (W1 & W2 & W3).
    eexists _, _, _. cbn [app]. eapply vemits_first; [intros; now apply vstep_id|].
    pose proof (vemits_id s' c [] x n r A W1 W2 W3) as E. unfold vword in E. cbn [app] in E.
    destruct (text_eqb (c :: s') (codes "der")) eqn:K; [apply text_eqb_eq in K; contradiction|exact E].
  - destruct W as (W1 & W2 & W3). eexists _, _, _. change (codes "der") with [100; 101; 114]. cbn [app].
    eapply vemits_first; [intros; apply vstep_id; unfold letter; lia|].
    apply (vemits_id [101; 114] 100 [] x n r); auto. repeat constructor; unfold letter; lia.
  - eexists _, _, _. cbn [app]. eapply vemits_later; [reflexivity|].
    rewrite <- app_assoc. apply (vemits_regex s []). exact T.
  - eexists _, _, _. cbn [app]. apply vemits_now.
    vm_compute in T. repeat destruct T as [<-|T]; try contradiction; reflexivity.
Qed.

Lemma vlex_text : forall l sp i x n fuel, wtext_ok l -> Forall space sp -> (List.length l < fuel)%nat ->
  vlex_loop fuel (mkV VNormal i x n) (sp ++ wtext l) = Ok (map (fun y => wtok_token (fst y)) l ++ [VEOF]).
Proof.
  induction l as [|[t sp'] l IH]; intros sp i x n fuel H S F; (destruct fuel as [|fuel]; [lia|]).
  - cbn [wtext flat_map]. rewrite app_nil_r. unfold vlex_loop; fold vlex_loop.
    destruct (vspaces_eof sp i x n 1 S) as (m' & E). rewrite E. reflexivity.
  - destruct H as (T & SP & W & H'). cbn [wtext flat_map fst snd]. fold (wtext l). rewrite <- app_assoc.
    destruct (vemits_tok t i x n (sp' ++ wtext l) T W) as (i' & x' & n' & E).
    unfold vlex_loop; fold vlex_loop. rewrite (vemits_lex _ _ _ _ _ (vspaces sp i x n _ _ _ _ S E)). cbn [bind].
    cbn [List.length] in F. rewrite IH by (auto; lia). cbn [bind map app fst].
    destruct t; reflexivity.
Qed.
Lemma wtok_nonempty : forall t, wtok_ok t -> (1 <= List.length (wtok_text t))%nat.
Proof.
  intros [ds|s| |s|c] T; cbn in *; try lia.
  - destruct T as (N & _). destruct ds; [congruence|cbn; lia].
  - destruct T as (_ & c & s' & -> & _). cbn. lia.
Qed.
Lemma wtext_length : forall l, wtext_ok l -> (List.length l <= List.length (wtext l))%nat.
Proof.
  induction l as [|[t sp] l IH]; intros H; [cbn; lia|]. destruct H as (T & SP & W & H').
  cbn [wtext flat_map List.length fst snd]. fold (wtext l). rewrite !app_length.
  pose proof (wtok_nonempty t T). specialize (IH H'). lia.
Qed.
Lemma vlex_correct : forall sp l, Forall space sp -> wtext_ok l ->
  vlex (sp ++ wtext l) = Ok (map (fun y => wtok_token (fst y)) l ++ [VEOF]).
Proof.
  intros sp l S H. unfold vlex. apply vlex_text; auto. rewrite app_length. pose proof (wtext_length l H). lia.
Qed.

(** ** Parsing *)
Lemma to_int_small : forall n, 0 <= n < 2 ^ 31 -> to_int n = n.
Proof. intros n H. unfold to_int. rewrite Z.mod_small; lia. Qed.

Lemma parse_index : forall b ts, bound_ok b ->
  parseArrayIndex (wtok_token (bound_token b) :: ts) = Some (bound_value b, ts).
Proof.
  intros [ds|] ts H; cbn [bound_token wtok_token bound_value]; [|reflexivity].
  destruct H as (N & D & B). unfold parseArrayIndex. cbn [expect is_sym].
  rewrite to_int_small; [reflexivity|]. pose proof (decimal_bound ds D). lia.
Qed.
Lemma parse_range : forall b ts, bound_ok (fst b) -> bound_ok (snd b) ->
  parseArrayRange (map wtok_token (slice_tokens b) ++ ts) = Some ((bound_value (fst b), bound_value (snd b)), ts).
Proof.
  intros b ts H1 H2. unfold slice_tokens, parseArrayRange. cbn [map app]. rewrite parse_index by auto.
  cbn [wtok_token expect is_sym]. change (58 =? 58) with true. cbv iota. now rewrite parse_index.
Qed.
(** The commas. *)
Definition comma_slices (l : list (option (list Z) * option (list Z))) : list wtok :=
  flat_map (fun b => WSym 44 :: slice_tokens b) l.
Lemma slices_tokens_cons : forall b l, slices_tokens (b :: l) = slice_tokens b ++ comma_slices l.
Proof.
  intros b l. revert b. induction l as [|c l IH]; intros b.
  - cbn [slices_tokens comma_slices flat_map]. now rewrite app_nil_r.
  - change (slices_tokens (b :: c :: l)) with (slice_tokens b ++ WSym 44 :: slices_tokens (c :: l)).
    rewrite IH. reflexivity.
Qed.
Lemma parse_more : forall l ts fuel, Forall (fun b => bound_ok (fst b) /\ bound_ok (snd b)) l ->
  (List.length l <= fuel)%nat -> expect 44 ts = None ->
  parseMore fuel (map wtok_token (comma_slices l) ++ ts) = Ok (Some (slices_of l, ts)).
Proof.
  induction l as [|b l IH]; intros ts fuel H F E.
  - cbn [comma_slices flat_map map app]. destruct fuel; cbn [parseMore]; rewrite E; reflexivity.
  - inversion H as [|x y [B1 B2] H']; subst. cbn [List.length] in F. destruct fuel as [|fuel]; [lia|].
    unfold comma_slices. cbn [flat_map]. fold (comma_slices l).
    change ((WSym 44 :: slice_tokens b) ++ comma_slices l) with (WSym 44 :: (slice_tokens b ++ comma_slices l)).
    cbn [map app parseMore wtok_token expect is_sym]. change (44 =? 44) with true. cbv iota.
    rewrite map_app, <- app_assoc, parse_range by auto. rewrite IH by (auto; lia). reflexivity.
Qed.
Lemma parse_array : forall b l ts, Forall (fun b => bound_ok (fst b) /\ bound_ok (snd b)) (b :: l) ->
  parseArray (VSym 91 :: map wtok_token (slices_tokens (b :: l)) ++ VSym 93 :: ts) = Ok (Some (slices_of (b :: l), ts)).
Proof.
  intros b l ts H. inversion H as [|x y [B1 B2] H']; subst. unfold parseArray. cbn [expect is_sym].
  change (91 =? 91) with true. cbv iota. rewrite slices_tokens_cons, map_app, <- app_assoc, parse_range by auto.
  rewrite parse_more; auto. rewrite app_length, map_length. unfold comma_slices.
  assert (L : forall l' : list (option (list Z) * option (list Z)), (List.length l' <= List.length (flat_map (fun b => WSym 44 :: slice_tokens b) l'))%nat).
  { induction l' as [|c l' IH]; [cbn; lia|]. cbn [flat_map]. rewrite app_length. cbn [List.length]. lia. }
  specialize (L l). lia.
Qed.

Lemma parse_element : forall rvalid f r ts, rule_ok rvalid r -> expect 91 ts = None ->
  parseListElement rvalid f (map wtok_token (rule_tokens r) ++ ts) = Ok (Some (record_rule f r, ts)).
Proof.
  intros rvalid f r ts R E. destruct r as [name l|name|s]; cbn [rule_ok] in R.
  - destruct R as [N L]. destruct l as [|b l].
    + cbn [rule_tokens map app wtok_token parseListElement]. now rewrite E.
    + cbn [rule_tokens map app wtok_token parseListElement expect is_sym]. change (91 =? 91) with true. cbv iota.
      rewrite map_app, <- app_assoc. cbn [map app wtok_token]. rewrite parse_array by auto. reflexivity.
  - reflexivity.
  - destruct R as (N & _ & V). cbn [rule_tokens map app wtok_token parseListElement].
    destruct s; [congruence|]. rewrite V. reflexivity.
Qed.

Lemma rule_tokens_first : forall r, exists t ts, rule_tokens r = t :: ts /\ is_sym 59 (wtok_token t) = false /\ wtok_token t <> VEOF.
Proof.
  intros [name [|b l]|name|s]; cbn [rule_tokens]; eexists _, _; (split; [reflexivity|]); cbn; split; congruence.
Qed.
Lemma vrun_step : forall rvalid fuel f r ts, rule_ok rvalid r -> expect 91 ts = None ->
  vrun rvalid (S fuel) f (map wtok_token (rule_tokens r) ++ ts) = vrun rvalid fuel (record_rule f r) ts.
Proof.
  intros rvalid fuel f r ts R E. pose proof (parse_element rvalid f r ts R E) as P.
  destruct (rule_tokens_first r) as (t & l & Q & S & N). rewrite Q in *. cbn [map app] in *.
  assert (X : expect 59 (wtok_token t :: map wtok_token l ++ ts) = None) by (unfold expect; now rewrite S).
  remember (wtok_token t :: map wtok_token l ++ ts) as us eqn:U. cbn [vrun]. rewrite X, P. cbn [bind].
  destruct us as [|u us]; [discriminate|]. inversion U; subst u. destruct (wtok_token t); congruence.
Qed.
Lemma filter_tokens_cons : forall r l, filter_tokens (r :: l) = rule_tokens r ++ flat_map (fun r => WSym 59 :: rule_tokens r) l.
Proof.
  intros r l. revert r. induction l as [|c l IH]; intros r.
  - cbn [filter_tokens flat_map]. now rewrite app_nil_r.
  - change (filter_tokens (r :: c :: l)) with (rule_tokens r ++ WSym 59 :: filter_tokens (c :: l)). now rewrite IH.
Qed.
Lemma vrun_more : forall rvalid l f fuel, Forall (rule_ok rvalid) l -> (2 * List.length l <= fuel)%nat ->
  vrun rvalid fuel f (map wtok_token (flat_map (fun r => WSym 59 :: rule_tokens r) l) ++ [VEOF])
  = Ok (Some (fold_left record_rule l f)).
Proof.
  induction l as [|r l IH]; intros f fuel H F.
  - destruct fuel; reflexivity.
  - inversion H; subst. cbn [List.length] in F. destruct fuel as [|[|fuel]]; try lia.
    cbn [flat_map fold_left]. rewrite map_app, <- app_assoc. cbn [map app wtok_token].
    assert (ST : forall x, vrun rvalid (S (S fuel)) f (VSym 59 :: x) = vrun rvalid (S fuel) f x) by reflexivity.
    rewrite ST, vrun_step; auto; [apply IH; auto; lia|]. destruct l; reflexivity.
Qed.

Lemma vrun_correct : forall rvalid l, Forall (rule_ok rvalid) l ->
  vrun rvalid (List.length (map wtok_token (filter_tokens l) ++ [VEOF])) vf_new (map wtok_token (filter_tokens l) ++ [VEOF])
  = Ok (Some (filter_of l)).
Proof.
  intros rvalid [|r l] H; [reflexivity|]. inversion H; subst. rewrite filter_tokens_cons, map_app, <- app_assoc.
  rewrite app_length. destruct (rule_tokens_first r) as (t & ts & E & _).
  remember (List.length (map wtok_token (rule_tokens r)) + List.length (map wtok_token (flat_map (fun r => WSym 59 :: rule_tokens r) l) ++ [VEOF]))%nat as fuel eqn:FE.
  assert (L : (2 * List.length l <= List.length (flat_map (fun r => WSym 59 :: rule_tokens r) l))%nat).
  { clear. induction l as [|c l IH]; [cbn; lia|]. cbn [flat_map]. rewrite app_length. cbn [List.length].
    destruct (rule_tokens_first c) as (t & ts & -> & _). cbn [List.length]. lia. }
  rewrite app_length, !map_length in FE. rewrite E in FE. cbn [List.length] in FE.
  destruct fuel as [|fuel]; [lia|]. rewrite vrun_step; auto; [|destruct l; reflexivity].
  unfold filter_of. cbn [fold_left]. apply vrun_more; auto. lia.
Qed.

(** The printed text without spaces. *)
Lemma wtext_nospace : forall l, wtext (map (fun t => (t, [])) l) = flat_map wtok_text l.
Proof. induction l as [|t l IH]; cbn; auto. rewrite app_nil_r. unfold wtext in IH. now rewrite IH. Qed.

(** A symbol, the end or a regular expression may follow any token. *)
Definition breaks (ts : list wtok) : Prop :=
  match ts with [] => True | WSym _ :: _ => True | _ => False end.
Lemma sym_follows : forall t ts, Forall wtok_ok ts -> breaks ts -> wfollows t (hd 0 (flat_map wtok_text ts)).
Proof.
  intros t ts T B. assert (S : ~ letter (hd 0 (flat_map wtok_text ts)) /\ ~ digit (hd 0 (flat_map wtok_text ts)) /\ hd 0 (flat_map wtok_text ts) <> 46).
  { destruct ts as [|[ds|s| |s|c] ts]; cbn in B; try contradiction.
    - cbn. unfold letter, digit. lia.
    - inversion T as [|x y C]; subst. cbn. cbn in C. repeat destruct C as [<-|C]; try contradiction; cbn; unfold letter, digit; lia. }
  destruct t; cbn; tauto.
Qed.
Fixpoint spaced (ts : list wtok) : Prop :=
  match ts with
  | [] => True
  | t :: ts' => (match t with WSym _ | WRegex _ => True | _ => breaks ts' end) /\ spaced ts'
  end.
Lemma spaced_ok : forall ts, Forall wtok_ok ts -> spaced ts -> wtext_ok (map (fun t => (t, [])) ts).
Proof.
  induction ts as [|t ts IH]; intros H S; [exact I|]. inversion H; subst. destruct S as [S1 S2].
  cbn [map wtext_ok]. split; auto. split; [constructor|]. split; [|auto].
  cbn [app]. rewrite wtext_nospace. destruct t; try exact I; now apply sym_follows.
Qed.
Lemma spaced_app : forall a c b, spaced a -> spaced (WSym c :: b) -> spaced (a ++ WSym c :: b).
Proof.
  induction a as [|t a IH]; intros c b A B; auto. destruct A as [A1 A2]. cbn [app spaced]. split; auto.
  destruct t; auto; destruct a as [|[] a]; cbn in *; auto.
Qed.
Lemma spaced_slices : forall l, spaced (slices_tokens l).
Proof.
  induction l as [|b l IH]; [exact I|].
  assert (S : spaced (slice_tokens b)) by (destruct b as [[?|] [?|]]; cbn; tauto).
  destruct l as [|c l]; [exact S|]. change (slices_tokens (b :: c :: l)) with (slice_tokens b ++ WSym 44 :: slices_tokens (c :: l)).
  apply spaced_app; auto. split; auto.
Qed.
Lemma spaced_rule : forall r, spaced (rule_tokens r).
Proof.
  intros [name [|b l]|name|s]; try (cbn; tauto).
  cbn [rule_tokens]. split; [exact I|]. split; [exact I|]. apply spaced_app; [apply spaced_slices|cbn; tauto].
Qed.
Lemma spaced_filter : forall l, spaced (filter_tokens l).
Proof.
  induction l as [|r l IH]; [exact I|]. destruct l as [|c l]; [apply spaced_rule|].
  change (filter_tokens (r :: c :: l)) with (rule_tokens r ++ WSym 59 :: filter_tokens (c :: l)).
  apply spaced_app; [apply spaced_rule|split; auto].
Qed.
Lemma bound_token_ok : forall b, bound_ok b -> wtok_ok (bound_token b).
Proof. intros [ds|] H; cbn in *; [intuition lia|tauto]. Qed.
Lemma slices_ok : forall l, Forall (fun b => bound_ok (fst b) /\ bound_ok (snd b)) l -> Forall wtok_ok (slices_tokens l).
Proof.
  intros [|b l] H; [constructor|]. rewrite slices_tokens_cons.
  assert (S : forall b, bound_ok (fst b) -> bound_ok (snd b) -> Forall wtok_ok (slice_tokens b)).
  { intros c H1 H2. repeat constructor; try (now apply bound_token_ok); cbn; tauto. }
  inversion H as [|x y [B1 B2] H']; subst. apply Forall_app. split; [auto|].
  unfold comma_slices. clear H B1 B2. induction H' as [|c l [C1 C2] _ IH]; cbn [flat_map]; [constructor|].
  apply Forall_app. split; [constructor; [cbn; tauto|auto]|auto].
Qed.
Lemma rule_tokens_ok : forall rvalid r, rule_ok rvalid r -> Forall wtok_ok (rule_tokens r).
Proof.
  intros rvalid [name [|b l]|name|s] H; cbn [rule_ok rule_tokens] in *.
  - repeat constructor; apply H.
  - constructor; [apply H|]. constructor; [cbn; tauto|]. apply Forall_app. split; [now apply slices_ok|].
    constructor; [cbn; tauto|constructor].
  - repeat constructor; try (apply H); cbn; tauto.
  - repeat constructor. apply H.
Qed.
Lemma filter_tokens_ok : forall rvalid l, Forall (rule_ok rvalid) l -> Forall wtok_ok (filter_tokens l).
Proof.
  intros rvalid [|r l] H; [constructor|]. rewrite filter_tokens_cons. inversion H; subst. apply Forall_app.
  split; [eapply rule_tokens_ok; eauto|]. clear H. induction H3; cbn [flat_map]; [constructor|].
  apply Forall_app. split; auto. constructor; [cbn; tauto|eapply rule_tokens_ok; eauto].
Qed.

Lemma parse_spaced : forall rvalid sp l toks, Forall (rule_ok rvalid) l -> Forall space sp ->
  map fst toks = filter_tokens l -> wtext_ok toks ->
  fromString rvalid (sp ++ wtext toks) = Ok (Some (filter_of l)).
Proof.
  intros rvalid sp l toks R S M W. unfold fromString. rewrite vlex_correct by auto. cbn [bind].
  rewrite <- (map_map fst wtok_token), M. now apply vrun_correct.
Qed.
Lemma parse_printed : forall rvalid l, Forall (rule_ok rvalid) l ->
  fromString rvalid (filter_text l) = Ok (Some (filter_of l)).
Proof.
  intros rvalid l R. unfold filter_text. rewrite <- wtext_nospace.
  apply (parse_spaced rvalid []); auto.
  - rewrite map_map. cbn. apply map_id.
  - apply spaced_ok; [eapply filter_tokens_ok; eauto|apply spaced_filter].
Qed.

(** ** The recorded rules *)
Lemma text_eqb_refl : forall a, text_eqb a a = true.
Proof. intros. now apply text_eqb_eq. Qed.
Lemma tfind_push : forall A k k' (a : A) m,
  tfind k (tpush k' a m) =
    if text_eqb k k' then Some (match tfind k m with Some l => l | None => [] end ++ [a]) else tfind k m.
Proof.
  induction m as [|[x l] m IH]; cbn.
  - reflexivity.
  - destruct (text_eqb k' x) eqn:E; cbn.
    + apply text_eqb_eq in E. subst x. destruct (text_eqb k k'); reflexivity.
    + rewrite IH. destruct (text_eqb k x) eqn:E2; auto.
      destruct (text_eqb k k') eqn:E3; auto. apply text_eqb_eq in E3, E2. subst.
      rewrite text_eqb_refl in E. discriminate.
Qed.

Definition listed (l : list (list vrange)) : option (list (list vrange)) := match l with [] => None | _ => Some l end.
Lemma filter_of_snoc : forall l r, filter_of (l ++ [r]) = record_rule (filter_of l) r.
Proof. intros. unfold filter_of. now rewrite fold_left_app. Qed.
Lemma rules_of_app : forall a b n, rules_of (a ++ b) n = rules_of a n ++ rules_of b n.
Proof. intros. unfold rules_of. apply flat_map_app. Qed.

Lemma filter_of_spec : forall l,
  (forall n, tfind n (vf_variables (filter_of l)) = listed (rules_of l n))
  /\ (forall n, (exists x, tfind n (vf_derivatives (filter_of l)) = Some x) <-> In (RDer n) l)
  /\ vf_regex (filter_of l) = regexes_of l
  /\ vf_enabled (filter_of l) = match l with [] => false | _ => true end.
Proof.
  induction l as [|r l IH] using rev_ind.
  - cbn. repeat split; auto; intros H; [destruct H; discriminate|destruct H].
  - destruct IH as (V & D & R & E). rewrite filter_of_snoc.
    assert (EN : match l ++ [r] with [] => false | _ => true end = true) by (destruct l; reflexivity).
    unfold regexes_of in *. rewrite flat_map_app, EN. cbn [flat_map].
    destruct r as [name s|name|s]; cbn [record_rule addVariable addDerivative addRegexString vf_variables vf_derivatives vf_regex vf_enabled].
    + rewrite app_nil_r. repeat split; auto.
      * intros n. rewrite tfind_push, V, rules_of_app. 
        assert (Q : rules_of [RVar name s] n = if text_eqb n name then [slices_of s] else [])
          by (unfold rules_of; cbn [flat_map]; now rewrite app_nil_r).
        rewrite Q. destruct (text_eqb n name) eqn:X.
        -- unfold listed. destruct (rules_of l n); cbn [app]; reflexivity.
        -- rewrite !app_nil_r. reflexivity.
      * intros H. apply in_or_app. left. now apply D.
      * intros H. apply D. apply in_app_or in H as [H|[H|[]]]; [auto|discriminate].
    + rewrite app_nil_r. repeat split; auto.
      * intros n. rewrite V, rules_of_app. cbn [rules_of flat_map]. now rewrite app_nil_r.
      * intros [x H]. rewrite tfind_push in H. apply in_or_app.
        destruct (text_eqb n name) eqn:X; [apply text_eqb_eq in X; subst; right; now left|]. left. apply D. eauto.
      * intros H. rewrite tfind_push. apply in_app_or in H as [H|[H|[]]].
        -- apply D in H as [x H]. destruct (text_eqb n name); eauto.
        -- inversion H; subst. rewrite text_eqb_refl. eauto.
    + repeat split; auto.
      * intros n. rewrite V, rules_of_app. cbn [rules_of flat_map]. now rewrite app_nil_r.
      * intros H. apply in_or_app. left. now apply D.
      * intros H. apply D. apply in_app_or in H as [H|[H|[]]]; [auto|discriminate].
      * now rewrite R.
Qed.

Lemma rules_of_in : forall l n rs, In rs (rules_of l n) <-> exists s, In (RVar n s) l /\ rs = slices_of s.
Proof.
  intros l n rs. unfold rules_of. rewrite in_flat_map. split.
  - intros ([n' s|n'|s] & I & H); try contradiction. destruct (text_eqb n n') eqn:E; [|contradiction].
    apply text_eqb_eq in E. subst n'. destruct H as [<-|[]]. eauto.
  - intros (s & I & ->). exists (RVar n s). split; auto. rewrite text_eqb_refl. now left.
Qed.
Lemma regexes_of_in : forall l r, In r (regexes_of l) <-> In (RRegex r) l.
Proof.
  intros l r. unfold regexes_of. rewrite in_flat_map. split.
  - intros ([n' s|n'|s] & I & H); try contradiction. destruct H as [<-|[]]. auto.
  - intros I. exists (RRegex r). split; auto. now left.
Qed.
Lemma matches_spec : forall rmatch l n, matchesRegex rmatch (filter_of l) n = true <->
  exists r, In (RRegex r) l /\ rmatch r n = true.
Proof.
  intros rmatch l n. unfold matchesRegex. destruct (filter_of_spec l) as (_ & _ & -> & _).
  rewrite existsb_exists. split; intros (r & I & H); exists r; (split; [|auto]); now apply regexes_of_in.
Qed.

(** The information on a variable. *)
Definition extended (rank : nat) (rs : list vrange) : list vrange :=
  firstn rank rs ++ unbounded (rank - List.length (firstn rank rs)).
Lemma info_spec : forall rmatch l n rank,
  (rules_of l n <> [] -> getVariableInfo rmatch (filter_of l) n rank = map (fun rs => (true, extended rank rs)) (rules_of l n))
  /\ (rules_of l n = [] -> exists v, getVariableInfo rmatch (filter_of l) n rank = [(v, unbounded rank)]
        /\ (v = true <-> l = [] \/ exists r, In (RRegex r) l /\ rmatch r n = true)).
Proof.
  intros rmatch l n rank. destruct (filter_of_spec l) as (V & D & R & E).
  unfold getVariableInfo. rewrite V. split; intros H.
  - unfold listed. destruct (rules_of l n) as [|x xs]; [congruence|]. reflexivity.
  - rewrite H. cbn [listed]. eexists. split; [reflexivity|]. rewrite orb_true_iff, matches_spec, E.
    destruct l; cbn; [tauto|]. split; [intros [X|X]; [discriminate|auto]|intros [X|X]; [discriminate|auto]].
Qed.

(** Printable indices. *)
Lemma unbounded_slice : forall p n, in_slice p (unbounded n).
Proof. induction p as [|i p IH]; intros [|n]; cbn; auto. Qed.
Lemma extended_cons : forall n r rs, extended (S n) (r :: rs) = r :: extended n rs.
Proof. reflexivity. Qed.
Lemma extended_nil : forall n, extended n [] = unbounded n.
Proof. intros [|n]; reflexivity. Qed.

Lemma printable_spec : forall shape rs, Forall (fun d => 0 < d) shape -> slice_within rs shape ->
  exists b, printable_ranges (extended (List.length shape) rs) shape = Ok b
    /\ forall p, in_box p b <-> in_shape p shape /\ in_slice p rs.
Proof.
  induction shape as [|d shape IH]; intros rs P W.
  - exists []. split; [destruct rs; reflexivity|]. intros p. split.
    + intros H. inversion H; subst. split; [constructor|exact I].
    + intros [H _]. inversion H; subst. constructor.
  - inversion P as [|x y D P']; subst.
    assert (X : exists r rs', extended (List.length (d :: shape)) rs = r :: extended (List.length shape) rs'
       /\ slice_within rs' shape /\ (fst r = -1 \/ 1 <= fst r <= d) /\ (snd r = -1 \/ 1 <= snd r <= d)
       /\ (fst r = -1 \/ snd r = -1 \/ fst r <= snd r)
       /\ forall i p, in_slice (i :: p) rs <-> (fst r = -1 \/ fst r <= i + 1) /\ (snd r = -1 \/ i + 1 <= snd r) /\ in_slice p rs').
    { destruct rs as [|[l u] rs].
      - exists (-1, -1), []. rewrite !extended_nil. split; [reflexivity|]. split; [exact I|]. cbn [fst snd].
        repeat split; auto. cbn. destruct p; exact I.
      - destruct W as (W1 & W2 & W3 & W4). exists (l, u), rs. repeat split; auto; apply H. }
    destruct X as (r & rs' & -> & W' & R1 & R2 & R3 & R4).
    destruct (IH rs' P' W') as (b & B1 & B2). cbn [printable_ranges]. unfold printable_range, mk_range, kUnbounded.
    set (lo := if fst r =? -1 then 0 else fst r - 1). set (up := if snd r =? -1 then d else snd r).
    assert (LU : 0 <= lo < up /\ up <= d) by (subst lo up; destruct (Z.eqb_spec (fst r) (-1)), (Z.eqb_spec (snd r) (-1)); lia).
    replace (lo <? up) with true by lia. cbn [bind]. rewrite B1. cbn [bind]. eexists. split; [reflexivity|].
    intros p. split.
    + intros H. inversion H as [|i r' p' b' I1 I2]; subst. apply B2 in I2 as [S1 S2]. unfold in_range in I1. cbn in I1.
      split; [constructor; [lia|auto]|]. apply R4. split; [|split; auto].
      * subst lo. destruct (Z.eqb_spec (fst r) (-1)); lia.
      * subst up. destruct (Z.eqb_spec (snd r) (-1)); lia.
    + intros [S1 S2]. inversion S1 as [|i d' p' sh' I1 I2]; subst. apply R4 in S2 as (Q1 & Q2 & Q3).
      constructor; [|apply B2; auto]. unfold in_range. cbn.
      subst lo up. destruct (Z.eqb_spec (fst r) (-1)), (Z.eqb_spec (snd r) (-1)); lia.
Qed.

Lemma printable_fold : forall shape fs s0, Forall (fun d => 0 < d) shape -> Forall (fun rs => slice_within rs shape) fs ->
  exists s, fold_res (fun s (f : vinfo) => if fst f then b <- printable_ranges (snd f) shape ;; Ok (bs_union s [b]) else Ok s)
              (map (fun rs => (true, extended (List.length shape) rs)) fs) s0 = Ok s
    /\ forall p, in_boxes p s <-> in_boxes p s0 \/ (in_shape p shape /\ exists rs, In rs fs /\ in_slice p rs).
Proof.
  induction fs as [|rs fs IH]; intros s0 P W.
  - exists s0. split; [reflexivity|]. intros p. split; [auto|]. intros [H|(_ & rs & [] & _)]. auto.
  - inversion W; subst. destruct (printable_spec shape rs P H1) as (b & B1 & B2).
    destruct (IH (bs_union s0 [b]) P H2) as (s & S1 & S2). exists s. cbn [map fold_res fst snd]. rewrite B1. cbn [bind].
    split; [exact S1|]. intros p. rewrite S2, bs_union_spec. split.
    + intros [[H|H]|(H & rs' & I & J)]; auto.
      * destruct H as (b' & [<-|[]] & H). apply B2 in H as [H3 H4]. right. split; auto. exists rs. split; [now left|auto].
      * right. split; auto. exists rs'. split; [now right|auto].
    + intros [H|(H & rs' & [<-|I] & J)]; auto.
      * left. right. exists b. split; [now left|]. apply B2. auto.
      * right. split; auto. exists rs'. auto.
Qed.

(** ** Totality *)
Lemma vstep_empty : forall m, exists m' t, vstep m 0 0 = Ok (m', Some t).
Proof.
  intros [[] i x n]; unfold vstep; cbn [v_state]; try (eexists _, _; reflexivity).
Qed.
Lemma vlex_token_fuel : forall fuel m rest, (List.length rest < fuel)%nat ->
  vlex_token fuel m rest <> NoFuel
  /\ forall t m' rest', vlex_token fuel m rest = Ok (t, m', rest') ->
       (List.length rest' <= List.length (tl rest))%nat.
Proof.
  induction fuel as [|fuel IH]; intros m rest F; [lia|]. cbn [vlex_token].
  destruct rest as [|c rest]; cbn [hd tl].
  - destruct (vstep_empty m) as (m' & t & ->). cbn [bind]. split; [discriminate|]. intros t' m'' r H. inversion H; subst. cbn. lia.
  - cbn [List.length] in F. destruct (vstep m c (hd 0 rest)) as [[m1 [t|]]| |] eqn:E; cbn [bind].
    + split; [discriminate|]. intros t' m'' r H. inversion H; subst. lia.
    + destruct (IH m1 rest) as [N L]; [lia|]. split; auto. intros t' m'' r H. apply L in H. destruct rest; cbn in *; lia.
    + split; discriminate.
    + exfalso. revert E. unfold vstep, vscan_normal, vscan_id, vscan_num, vscan_regex, il_add, i64.
      destruct (v_state m); cbn [v_num v_ident v_regex];
        repeat (match goal with |- context [if ?b then _ else _] => destruct b end; cbn [bind]); congruence.
Qed.
Lemma vlex_token_rest : forall fuel m t m' rest', (v_state m = VNormal \/ v_state m = VEnd) ->
  vlex_token fuel m [] = Ok (t, m', rest') -> t = VEOF.
Proof.
  intros [|fuel] [st i x n] t m' rest' H E; [discriminate|]. cbn [v_state] in H.
  destruct H as [->| ->]; cbn in E; inversion E; auto.
Qed.
Lemma vlex_token_state : forall fuel m rest t m' rest', vlex_token fuel m rest = Ok (t, m', rest') ->
  v_state m' = VNormal \/ v_state m' = VEnd.
Proof.
  induction fuel as [|fuel IH]; intros m rest t m' rest' E; [discriminate|]. cbn [vlex_token] in E.
  destruct (vstep m (hd 0 rest) (hd 0 (tl rest))) as [[m1 [t1|]]| |] eqn:S; cbn [bind] in E; try discriminate; eauto.
  inversion E; subst. revert S. unfold vstep, vscan_normal, vscan_id, vscan_num, vscan_regex.
  destruct (v_state m) eqn:SM; cbn [v_num v_ident v_regex];
    repeat (match goal with |- context [if ?b then _ else _] => destruct b end; cbn [bind]);
    try (destruct (il_add _ _); cbn [bind]);
    repeat (match goal with |- context [if ?b then _ else _] => destruct b end; cbn [bind]);
    intros S; inversion S; subst; cbn; auto.
Qed.
Lemma vlex_loop_fuel : forall fuel m rest, (v_state m = VNormal \/ v_state m = VEnd) -> (List.length rest < fuel)%nat ->
  vlex_loop fuel m rest <> NoFuel
  /\ forall l, vlex_loop fuel m rest = Ok l -> exists ks, l = ks ++ [VEOF] /\ ~ In VEOF ks.
Proof.
  induction fuel as [|fuel IH]; intros m rest M F; [lia|]. cbn [vlex_loop].
  destruct (vlex_token_fuel (List.length rest + 2) m rest) as [N L]; [lia|].
  destruct (vlex_token (List.length rest + 2) m rest) as [[[t m'] rest']| |] eqn:E; cbn [bind]; try (split; congruence).
  assert (D : t = VEOF \/ t <> VEOF) by (destruct t; auto; right; congruence).
  destruct D as [->|D].
  - split; [discriminate|]. intros l H. inversion H; subst. exists []. auto.
  - assert (R : (List.length rest' < fuel)%nat).
    { destruct rest as [|c rest]; [apply vlex_token_rest in E; auto; contradiction|].
      specialize (L _ _ _ eq_refl). cbn in L, F. lia. }
    destruct (IH m' rest') as [K1 K2]; [eapply vlex_token_state; eauto|auto|].
    assert (X : (l <- vlex_loop fuel m' rest' ;; Ok (t :: l)) <> NoFuel
       /\ forall l, (l <- vlex_loop fuel m' rest' ;; Ok (t :: l)) = Ok l -> exists ks, l = ks ++ [VEOF] /\ ~ In VEOF ks).
    { destruct (vlex_loop fuel m' rest') as [l'| |]; cbn [bind]; try (split; congruence).
      split; [discriminate|]. intros l H. inversion H; subst. destruct (K2 l' eq_refl) as (ks & -> & NI).
      exists (t :: ks). split; auto. intros [Y|Y]; auto. }
    destruct t; auto; contradiction.
Qed.
Lemma vlex_total : forall s, vlex s <> NoFuel /\ forall l, vlex s = Ok l -> exists ks, l = ks ++ [VEOF] /\ ~ In VEOF ks.
Proof. intros s. unfold vlex. apply vlex_loop_fuel; [left; reflexivity|lia]. Qed.

Lemma expect_shorter : forall c ts ts', expect c ts = Some ts' -> (List.length ts' < List.length ts)%nat.
Proof.
  intros c [|t ts] ts' H; cbn in H; [discriminate|]. destruct (is_sym c t); [|discriminate]. inversion H; subst. cbn. lia.
Qed.
Lemma index_shorter : forall ts n ts', parseArrayIndex ts = Some (n, ts') -> (List.length ts' < List.length ts)%nat.
Proof.
  intros ts n ts' H. unfold parseArrayIndex in H. destruct (expect 36 ts) as [ts1|] eqn:E.
  - apply expect_shorter in E. inversion H; subst. auto.
  - destruct ts as [|[] ts]; try discriminate. inversion H; subst. cbn. lia.
Qed.
Lemma range_shorter : forall ts r ts', parseArrayRange ts = Some (r, ts') -> (List.length ts' < List.length ts)%nat.
Proof.
  intros ts r ts' H. unfold parseArrayRange in H.
  destruct (parseArrayIndex ts) as [[l ts1]|] eqn:E1; [|discriminate].
  destruct (expect 58 ts1) as [ts2|] eqn:E2; [|discriminate].
  destruct (parseArrayIndex ts2) as [[u ts3]|] eqn:E3; [|discriminate]. inversion H; subst.
  apply index_shorter in E1, E3. apply expect_shorter in E2. lia.
Qed.
Lemma more_shorter : forall fuel ts, (List.length ts <= fuel)%nat -> exists o, parseMore fuel ts = Ok o
  /\ forall l ts', o = Some (l, ts') -> (List.length ts' <= List.length ts)%nat.
Proof.
  induction fuel as [|fuel IH]; intros ts F.
  - destruct ts; [|cbn in F; lia]. cbn. eexists. split; [reflexivity|]. intros l ts' H. inversion H; subst. cbn. lia.
  - cbn [parseMore]. destruct (expect 44 ts) as [ts1|] eqn:E.
    + apply expect_shorter in E. destruct (parseArrayRange ts1) as [[r ts2]|] eqn:P.
      * apply range_shorter in P. destruct (IH ts2) as (o & -> & K); [lia|]. cbn [bind]. eexists. split; [reflexivity|].
        intros l ts' H. destruct o as [[l' ts3]|]; [|discriminate]. inversion H; subst. specialize (K _ _ eq_refl). lia.
      * eexists. split; [reflexivity|]. discriminate.
    + eexists. split; [reflexivity|]. intros l ts' H. inversion H; subst. lia.
Qed.
Lemma element_shorter : forall rvalid f ts, exists o, parseListElement rvalid f ts = Ok o
  /\ forall f' ts', o = Some (f', ts') -> (List.length ts' < List.length ts)%nat.
Proof.
  intros rvalid f ts. destruct ts as [|t ts]; [eexists; split; [reflexivity|discriminate]|].
  destruct t; cbn [parseListElement]; try (eexists; split; [reflexivity|discriminate]).
  - destruct (expect 91 ts) as [ts1|] eqn:E.
    + unfold parseArray. rewrite E. apply expect_shorter in E.
      destruct (parseArrayRange ts1) as [[r ts2]|] eqn:P; [|eexists; split; [reflexivity|discriminate]].
      apply range_shorter in P. destruct (more_shorter (List.length ts2) ts2 (le_n _)) as (o & -> & K). cbn [bind].
      eexists. split; [reflexivity|]. intros f' ts' H. destruct o as [[l ts3]|]; [|discriminate].
      specialize (K _ _ eq_refl). destruct (expect 93 ts3) as [ts4|] eqn:E4; [|discriminate].
      apply expect_shorter in E4. inversion H; subst. cbn. lia.
    + eexists. split; [reflexivity|]. intros f' ts' H. inversion H; subst. cbn. lia.
  - eexists. split; [reflexivity|]. intros f' ts' H. destruct s; [discriminate|]. destruct (rvalid _); [|discriminate].
    inversion H; subst. cbn. lia.
  - eexists. split; [reflexivity|]. intros f' ts' H. unfold parseDer in H.
    destruct (expect 40 ts) as [[|[] ts1]|] eqn:E; try discriminate. apply expect_shorter in E. cbn [List.length] in E.
    destruct (expect 41 ts1) as [ts2|] eqn:E2; [|discriminate]. apply expect_shorter in E2. inversion H; subst. cbn. lia.
Qed.
Lemma vrun_total : forall rvalid fuel f ts, (List.length ts <= fuel)%nat -> exists o, vrun rvalid fuel f ts = Ok o.
Proof.
  induction fuel as [|fuel IH]; intros f ts F.
  - destruct ts; [|cbn in F; lia]. cbn. eauto.
  - assert (X : exists o, (match expect 59 ts with
          | Some ts1 => vrun rvalid fuel f ts1
          | None => o <- parseListElement rvalid f ts ;;
              match o with Some (f', ts1) => vrun rvalid fuel f' ts1 | None => Ok None end
          end) = Ok o).
    { destruct (expect 59 ts) as [ts1|] eqn:E; [apply expect_shorter in E; apply IH; lia|].
      destruct (element_shorter rvalid f ts) as (o & -> & K). cbn [bind]. destruct o as [[f' ts1]|]; [|eauto].
      specialize (K _ _ eq_refl). apply IH. lia. }
    cbn [vrun]. destruct ts as [|t ts]; [eauto|]. destruct t; eauto.
Qed.
Lemma fromString_total : forall rvalid s, fromString rvalid s <> NoFuel
  /\ (forall l, vlex s = Ok l -> exists o, fromString rvalid s = Ok o).
Proof.
  intros rvalid s. unfold fromString. destruct (vlex_total s) as [N _]. destruct (vlex s) as [l| |]; cbn [bind]; try (split; [discriminate|]).
  - destruct (vrun_total rvalid (List.length l) vf_new l (le_n _)) as (o & E). rewrite E. split; [discriminate|eauto].
  - intros; discriminate.
  - congruence.
Qed.
