(** Proofs about the functions moved out of their packages. *)

From Coq Require Import List Arith Bool String DecimalString DecimalNat FinFun Lia.
From Verif Require Import UnwrapModel UnwrapSpec.
Import ListNotations.
Local Open Scope nat_scope.

Lemma append_inj : forall s a b, (s ++ a)%string = (s ++ b)%string -> a = b.
Proof. induction s as [|c s IH]; intros a b H; cbn in H; auto. injection H as H. auto. Qed.
Lemma decimal_inj : forall a b, decimal a = decimal b -> a = b.
Proof.
  intros a b H. unfold decimal in H. apply (f_equal NilEmpty.uint_of_string) in H.
  rewrite !NilEmpty.usu in H. injection H as H. apply (f_equal Nat.of_uint) in H.
  now rewrite !Unsigned.of_to in H.
Qed.
Lemma mem_iff : forall n l, mem n l = true <-> In n l.
Proof.
  intros n l. unfold mem. rewrite existsb_exists. split.
  - intros (x & H & E). apply String.eqb_eq in E. now subst.
  - intros H. exists n. split; auto. apply String.eqb_refl.
Qed.
Lemma mem_not : forall n l, mem n l = false <-> ~ In n l.
Proof. intros n l. rewrite <- mem_iff. destruct (mem n l); split; congruence. Qed.

Definition candidate (name : string) (k : nat) : string := (name ++ "_" ++ decimal k)%string.
Lemma candidate_inj : forall name a b, candidate name a = candidate name b -> a = b.
Proof. intros name a b H. apply append_inj in H. apply (append_inj "_") in H. now apply decimal_inj. Qed.

Lemma fresh_none : forall name table fuel c, fresh fuel name c table = None ->
  forall k, k < fuel -> In (candidate name (c + k)) table.
Proof.
  intros name table. induction fuel as [|fuel IH]; intros c H k Hk; [lia|].
  cbn [fresh] in H. fold (candidate name c) in H. destruct (mem (candidate name c) table) eqn:E; [|discriminate].
  destruct k as [|k].
  - rewrite Nat.add_0_r. now apply mem_iff.
  - replace (c + S k) with (S c + k) by lia. apply IH; auto. lia.
Qed.
Lemma fresh_some : forall name table fuel c n c', fresh fuel name c table = Some (n, c') -> ~ In n table.
Proof.
  intros name table. induction fuel as [|fuel IH]; intros c n c' H; [discriminate|].
  cbn [fresh] in H. fold (candidate name c) in H. destruct (mem (candidate name c) table) eqn:E; [eauto|].
  injection H as <- <-. now apply mem_not.
Qed.
Lemma fresh_total : forall name table c, fresh (S (List.length table)) name c table <> None.
Proof.
  intros name table c H.
  assert (L : List.length (map (fun k => candidate name (c + k)) (seq 0 (S (List.length table)))) <= List.length table).
  { apply NoDup_incl_length.
    - apply FinFun.Injective_map_NoDup; [|apply seq_NoDup]. intros a b E. apply candidate_inj in E. lia.
    - intros x Hx. apply in_map_iff in Hx as (k & <- & Hk). apply in_seq in Hk.
      apply (fresh_none _ _ _ _ H). lia. }
  rewrite map_length, seq_length in L. lia.
Qed.
Lemma insert_name_ok : forall name c table, exists n c', insert_name name c table = Some (n, c') /\ ~ In n table.
Proof.
  intros name c table. unfold insert_name. destruct (mem name table) eqn:E.
  - destruct (fresh (S (List.length table)) name c table) as [[n c']|] eqn:F.
    + exists n, c'. split; auto. eapply fresh_some; eauto.
    + exfalso. eapply fresh_total; eauto.
  - exists name, c. split; auto. now apply mem_not.
Qed.

Lemma not_nested : forall p, p <> [] -> nested p = false -> p = [hd ""%string p].
Proof. intros [|a [|b p]] H E; cbn in *; congruence. Qed.

Definition named (table : list string) (f : func) (n : string) : Prop :=
  if nested (f_path f) then ~ In n table else f_path f = [n].
Lemma named_mono : forall m table f n, named (m :: table) f n -> named table f n.
Proof. intros m table f n. unfold named. destruct (nested (f_path f)); auto. intros H K. apply H. now right. Qed.

Lemma new_names_ok : forall fs c table,
  Forall (fun f => f_path f <> []) fs -> NoDup (map f_path fs) ->
  (forall f, In f fs -> nested (f_path f) = false -> In (hd ""%string (f_path f)) table) ->
  exists ns, new_names c table fs = Some ns /\ Forall2 (named table) fs ns /\ NoDup ns.
Proof.
  induction fs as [|f fs IH]; intros c table NE ND T; cbn [new_names].
  - exists []. repeat constructor.
  - inversion NE; subst. cbn in ND. inversion ND; subst.
    destruct (nested (f_path f)) eqn:E.
    + destruct (insert_name_ok (join (f_path f)) c table) as (n & c' & -> & Hn).
      destruct (IH c' (n :: table)) as (ns & -> & HF & HD); auto.
      { intros g Hg Eg. right. apply T; auto. now right. }
      exists (n :: ns). split; [reflexivity|]. split.
      * constructor; [unfold named; now rewrite E|].
        clear - HF. induction HF; constructor; auto. eapply named_mono; eauto.
      * constructor; auto. intros K.
        assert (X : forall fs ns, Forall2 (named (n :: table)) fs ns -> (forall g, In g fs -> nested (f_path g) = false -> In (hd ""%string (f_path g)) table) -> ~ In n ns).
        { clear - Hn. induction 1 as [|g m gs ms Hgm _ IH]; intros T; [intros []|]. intros [->|K].
          - unfold named in Hgm. destruct (nested (f_path g)) eqn:E; [apply Hgm; now left|].
            apply Hn. specialize (T g (or_introl eq_refl) E). now rewrite Hgm in T.
          - apply IH in K; auto. intros g' Hg'. apply T. now right. }
        apply (X _ _ HF); auto. intros g Hg. apply T. now right.
    + destruct (IH c table) as (ns & -> & HF & HD); auto.
      { intros g Hg Eg. apply T; auto. now right. }
      pose proof (not_nested _ H1 E) as P. exists (hd ""%string (f_path f) :: ns). split; [reflexivity|]. split.
      * constructor; auto. unfold named. now rewrite E.
      * constructor; auto.
        pose proof (T f (or_introl eq_refl) E) as Tf.
        assert (X : forall fs ns, Forall2 (named table) fs ns -> ~ In (f_path f) (map f_path fs) -> ~ In (hd ""%string (f_path f)) ns).
        { clear - Tf P. induction 1 as [|g m gs ms Hgm _ IH]; intros N; [intros []|]. intros [K|K].
          - unfold named in Hgm. destruct (nested (f_path g)); [apply Hgm; now rewrite K|].
            apply N. left. rewrite Hgm, K. now rewrite <- P.
          - apply IH in K; auto. intros Y. apply N. now right. }
        apply (X _ _ HF); auto.
Qed.

Lemma find_func_in : forall fs ns k f n, NoDup (map f_path fs) -> nth_error fs k = Some f -> nth_error ns k = Some n ->
  find_func (f_path f) (combine fs ns) = Some (f, n).
Proof.
  induction fs as [|g fs IH]; intros ns k f n ND Hf Hn; [now destruct k|].
  destruct ns as [|m ns]; [now destruct k|]. cbn in ND. inversion ND; subst. cbn [combine find_func].
  unfold path_eqb. destruct k as [|k]; cbn in Hf, Hn.
  - injection Hf as ->. injection Hn as ->. destruct (list_eq_dec string_dec (f_path f) (f_path f)); congruence.
  - destruct (list_eq_dec string_dec (f_path g) (f_path f)) as [E|_]; [|eauto].
    exfalso. apply H1. rewrite E. apply in_map. eapply nth_error_In; eauto.
Qed.

Lemma Forall2_nth : forall {A B} (R : A -> B -> Prop) l m k a, Forall2 R l m -> nth_error l k = Some a ->
  exists b, nth_error m k = Some b /\ R a b.
Proof.
  intros A B R l m k a H. revert k. induction H as [|x y l m Hxy _ IH]; intros [|k] Hk; cbn in *; try discriminate.
  - injection Hk as ->. eauto.
  - eauto.
Qed.

Section Pass.
Variable p : program.
Hypothesis ok : well_named p.
Lemma names_ok : exists ns, new_names 0 (top_names p) (p_funcs p) = Some ns
  /\ Forall2 (named (top_names p)) (p_funcs p) ns /\ NoDup ns.
Proof.
  destruct ok as (H1 & H2 & H3 & H4). apply new_names_ok; auto.
  intros f Hf E. unfold top_names. apply in_or_app. left. apply in_map_iff. exists f. split; auto.
  apply filter_In. rewrite E. auto.
Qed.

Variable ns : list string.
Hypothesis named_ns : Forall2 (named (top_names p)) (p_funcs p) ns.
Hypothesis nodup_ns : NoDup ns.
Let l := combine (p_funcs p) ns.

Lemma paths_of : forall fs ms l', Forall2 (named (top_names p)) fs ms ->
  map f_path (map (unwrap_func l') (combine fs ms)) = map (fun n => [n]) ms.
Proof.
  intros fs ms l'. induction 1 as [|f n fs ms H _ IH]; cbn; auto. f_equal; auto.
  unfold named in H. destruct (nested (f_path f)); auto.
Qed.
Definition q : program := mangle (mkProg (map (unwrap_func l) l) (p_others p) (map (unwrap_call l) (p_calls p))).
Lemma q_paths : map f_path (p_funcs q) = map (fun n => [mangled n]) ns.
Proof.
  cbn. rewrite map_map. cbn. rewrite <- map_map with (f := f_path) (g := mangle_path).
  unfold l. rewrite (paths_of _ _ _ named_ns), map_map. reflexivity.
Qed.
Lemma q_nodup : NoDup (map f_path (p_funcs q)).
Proof.
  rewrite q_paths. apply FinFun.Injective_map_NoDup; auto. intros a b H. injection H as H. auto.
Qed.
Lemma call_target : forall c k f, nth_error (p_funcs p) k = Some f -> f_path f = c_callee c ->
  exists n, nth_error ns k = Some n /\ c_callee (mangle_call (unwrap_call l c)) = [mangled n]
    /\ c_rank (mangle_call (unwrap_call l c)) = if nested (f_path f) then f_rank f else c_rank c.
Proof.
  intros c k f Hf E. destruct (Forall2_nth _ _ _ _ _ named_ns Hf) as (n & Hn & Hfn).
  exists n. split; auto. unfold unwrap_call. rewrite <- E.
  destruct ok as (_ & ND & _). unfold l. rewrite (find_func_in _ _ _ _ _ ND Hf Hn).
  unfold named in Hfn. destruct (nested (f_path f)); cbn; auto. rewrite <- E, Hfn. auto.
Qed.
Lemma call_runs : forall c, same_target p q c (mangle_call (unwrap_call l c)).
Proof.
  intros c k [(f & Hf & E) _]. destruct (call_target c k f Hf E) as (n & Hn & Hc & _).
  assert (G : forall j, nth_error (map f_path (p_funcs q)) j = option_map (fun n => [mangled n]) (nth_error ns j)).
  { intros j. rewrite q_paths. apply nth_error_map. }
  assert (exists g, nth_error (p_funcs q) k = Some g /\ f_path g = [mangled n]) as (g & Hg & Eg).
  { specialize (G k). rewrite Hn in G. rewrite nth_error_map in G. cbn [option_map] in G.
    destruct (nth_error (p_funcs q) k) as [g|]; cbn in G; [|discriminate]. injection G as G. eauto. }
  split.
  - exists g. split; auto. now rewrite Hc.
  - intros j h Hh Eh. rewrite Hc in Eh. pose proof q_nodup as ND.
    assert (Hlt : j < List.length (map f_path (p_funcs q))).
    { rewrite map_length. apply nth_error_Some. congruence. }
    apply (proj1 (NoDup_nth_error (map f_path (p_funcs q))) ND j k Hlt).
    now rewrite !nth_error_map, Hh, Hg; cbn; rewrite Eh, Eg.
Qed.
Lemma q_funcs : forall k f, nth_error (p_funcs p) k = Some f -> exists g, nth_error (p_funcs q) k = Some g
  /\ (exists n, f_path g = [n]) /\ f_rank g = f_rank f
  /\ f_inline g = (if nested (f_path f) then false else f_inline f)
  /\ f_calls g = map (fun c => mangle_call (unwrap_call l c)) (f_calls f).
Proof.
  intros k f Hf. destruct (Forall2_nth _ _ _ _ _ named_ns Hf) as (n & Hn & Hfn).
  assert (Hl : nth_error l k = Some (f, n)).
  { unfold l. clear - Hf Hn. revert ns k Hf Hn. induction (p_funcs p) as [|g fs IH]; intros [|m ms] [|k] Hf Hn; cbn in *; try discriminate; auto.
    congruence. }
  eexists. split.
  - cbn. rewrite map_map. rewrite nth_error_map, Hl. reflexivity.
  - unfold named in Hfn. cbn. destruct (nested (f_path f)); cbn; rewrite map_map; repeat split; eauto.
    rewrite Hfn. cbn. eauto.
Qed.
Lemma q_length : List.length (p_funcs q) = List.length (p_funcs p).
Proof.
  cbn. rewrite !map_length. unfold l. rewrite combine_length.
  assert (List.length (p_funcs p) = List.length ns) by (clear - named_ns; induction named_ns; cbn; auto). lia.
Qed.
End Pass.
Lemma passes_q : forall p ns, new_names 0 (top_names p) (p_funcs p) = Some ns -> passes p = Some (q p ns).
Proof. intros p ns H. unfold passes, unwrap. rewrite H. reflexivity. Qed.
