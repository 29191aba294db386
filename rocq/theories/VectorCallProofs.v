(** Proofs about calls with arrays. *)

From Coq Require Import List Arith Bool Lia.
Import ListNotations.
From Verif Require Import VectorCallModel VectorCallSpec.

Lemma forall2_length {A B} (R : A -> B -> Prop) a b : Forall2 R a b -> length a = length b.
Proof. induction 1; cbn [length]; congruence. Qed.

(** ** The loop nest *)

Lemma nest_in : forall b i, In i (nest b) <-> index_of i b.
Proof.
  induction b as [| n b IH]; intros i; cbn [nest].
  - unfold index_of. split; intros H.
    + destruct H as [<- | []]. constructor.
    + inversion H. left; reflexivity.
  - rewrite in_flat_map. unfold index_of in *. split.
    + intros (k & Hk & Hi). apply in_seq in Hk. apply in_map_iff in Hi as (j & <- & Hj).
      constructor; [lia | apply IH; exact Hj].
    + intros H. inversion H as [| k m j b' Hk Hj]; subst.
      exists k. split; [apply in_seq; lia | apply in_map, IH; exact Hj].
Qed.

Lemma index_of_length : forall i d, index_of i d -> length i = length d.
Proof. intros i d H. exact (forall2_length _ _ _ H). Qed.

Lemma inside_prefix : forall i a b, index_of i a -> inside i (a ++ b) = true.
Proof.
  intros i a b H. induction H as [| k n i a Hk Hi IH]; [reflexivity |].
  cbn [inside app]. rewrite IH. apply Nat.ltb_lt in Hk. rewrite Hk. reflexivity.
Qed.

Lemma inside_app_inv : forall i a b, length i = length a ->
  inside i (a ++ b) = true -> index_of i a.
Proof.
  induction i as [| k i IH]; intros [| n a] b L H; try discriminate; [constructor |].
  cbn [inside app] in H. apply andb_true_iff in H as (Hk & Hi). apply Nat.ltb_lt in Hk.
  constructor; [exact Hk |]. apply (IH a b); [injection L; auto | exact Hi].
Qed.

Lemma idx_eqb_spec : forall a b, idx_eqb a b = true <-> a = b.
Proof.
  intros a b. unfold idx_eqb. destruct (list_eq_dec Nat.eq_dec a b); split; congruence.
Qed.

Lemma firstn_app_len {A} (a b : list A) : firstn (length a) (a ++ b) = a.
Proof. rewrite firstn_app, firstn_all, Nat.sub_diag, firstn_O, app_nil_r. reflexivity. Qed.

Lemma skipn_app_len {A} (a b : list A) : skipn (length a) (a ++ b) = b.
Proof. rewrite skipn_app, skipn_all, Nat.sub_diag. reflexivity. Qed.

Lemma slices_ok {V} : forall i outer (args : list (tensor V)),
  index_of i outer -> Forall (fun t => exists d, t_dims t = outer ++ d) args ->
  slices i args = Some (map (part i) args).
Proof.
  intros i outer args Hi H. induction H as [| t args (d & Hd) _ IH]; [reflexivity |].
  cbn [slices map]. rewrite IH. unfold slice. rewrite Hd, (inside_prefix i outer d Hi).
  unfold part. rewrite Hd. reflexivity.
Qed.

(** The state after the loop: what was put at the indices visited. *)
Lemma loop_ok {V} (f : callee V) args outer inner :
  Forall (fun t => exists d, t_dims t = outer ++ d) args ->
  (forall ts, t_dims (f_body f ts) = inner) ->
  forall todo buf, (forall i, In i todo -> index_of i outer) ->
  exists buf', loop f args (outer ++ inner) todo buf = Some buf' /\
    forall i j, index_of i outer ->
      buf' (i ++ j) = if in_dec (list_eq_dec Nat.eq_dec) i todo
                      then Some (t_at (f_body f (map (part i) args)) j)
                      else buf (i ++ j).
Proof.
  intros Ha Hf. induction todo as [| k todo IH]; intros buf Ht.
  - exists buf. split; [reflexivity | intros i j Hi; reflexivity].
  - cbn [loop]. unfold body.
    assert (Hk : index_of k outer) by (apply Ht; left; reflexivity).
    rewrite (slices_ok k outer args Hk Ha), (inside_prefix k outer inner Hk).
    assert (L : length k = length outer) by (apply index_of_length; exact Hk).
    rewrite Hf, L, skipn_app_len.
    rewrite (proj2 (idx_eqb_spec inner inner) eq_refl). cbn [andb].
    destruct (IH (put k (f_body f (map (part k) args)) buf)
                 (fun i Hi => Ht i (or_intror Hi))) as (buf' & E & Hb).
    exists buf'. split; [exact E |]. intros i j Hi. rewrite (Hb i j Hi).
    assert (Li : length i = length k) by (rewrite L; apply index_of_length; exact Hi).
    destruct (in_dec (list_eq_dec Nat.eq_dec) i todo) as [Y | N].
    + destruct (in_dec (list_eq_dec Nat.eq_dec) i (k :: todo)) as [Y' | N'];
        [reflexivity | destruct N'; right; exact Y].
    + unfold put. rewrite <- Li, firstn_app_len, skipn_app_len.
      destruct (in_dec (list_eq_dec Nat.eq_dec) i (k :: todo)) as [Y' | N'].
      * destruct Y' as [-> | Y']; [| contradiction].
        rewrite (proj2 (idx_eqb_spec i i) eq_refl). reflexivity.
      * destruct (idx_eqb i k) eqn:Ek; [| reflexivity].
        apply idx_eqb_spec in Ek. destruct N'. left; congruence.
Qed.

(** ** The sizes of the result *)

Lemma alloc_static : forall s d i, alloc_dims (map Some s) d i = Some s.
Proof.
  induction s as [| n s IH]; intros d i; cbn [alloc_dims map]; [reflexivity |].
  rewrite IH. reflexivity.
Qed.

Lemma alloc_typed : forall dims outer inner pre rest,
  typed dims outer ->
  alloc_dims (dims ++ map Some inner) (pre ++ outer ++ rest) (length pre)
  = Some (outer ++ inner).
Proof.
  intros dims outer inner pre rest H. revert pre.
  induction H as [| o n dims outer Ho H IH]; intros pre; cbn [app].
  - apply alloc_static.
  - cbn [alloc_dims].
    specialize (IH (pre ++ [n])). rewrite app_length, Nat.add_1_r, <- app_assoc in IH.
    cbn [app] in IH. rewrite IH.
    destruct Ho as [-> | ->]; [| reflexivity].
    rewrite nth_error_app2, Nat.sub_diag by lia. reflexivity.
Qed.

(** ** The types *)

Lemma typed_length : forall s d, typed s d -> length s = length d.
Proof. intros s d H. exact (forall2_length _ _ _ H). Qed.

Lemma getDim_typed : forall s d i n, typed s d -> nth_error d i = Some n ->
  getDim s i = None \/ getDim s i = Some n.
Proof.
  unfold getDim. intros s d i n H. revert i. induction H as [| o m s d Ho H IH];
    intros [| i] E; cbn in *; try discriminate.
  - injection E as ->. exact Ho.
  - apply IH; exact E.
Qed.

Lemma specialize_typed : forall dims outer arg pre rest,
  typed dims outer -> typed arg (pre ++ outer ++ rest) ->
  exists dims', specialize dims arg (length pre) = Some dims' /\ typed dims' outer.
Proof.
  intros dims outer arg pre rest H. revert pre.
  induction H as [| o n dims outer Ho H IH]; intros pre Ha; cbn [specialize].
  - exists []. split; [reflexivity | constructor].
  - destruct (IH (pre ++ [n])) as (ds & E & T).
    { rewrite <- app_assoc. exact Ha. }
    rewrite app_length, Nat.add_1_r in E. rewrite E.
    assert (G : getDim arg (length pre) = None \/ getDim arg (length pre) = Some n).
    { apply (getDim_typed _ _ _ _ Ha). rewrite nth_error_app2, Nat.sub_diag by lia.
      reflexivity. }
    destruct G as [G | G]; rewrite G.
    + exists (o :: ds). split; [reflexivity | constructor; assumption].
    + destruct Ho as [-> | ->].
      * exists (Some n :: ds). split; [reflexivity | constructor; auto].
      * rewrite Nat.eqb_refl. exists (Some n :: ds). split; [reflexivity | constructor; auto].
Qed.

Lemma specialize_length : forall dims arg i dims',
  specialize dims arg i = Some dims' -> length dims' = length dims.
Proof.
  induction dims as [| d dims IH]; intros arg i dims' E; cbn [specialize] in E.
  - injection E as <-. reflexivity.
  - destruct (specialize dims arg (S i)) as [ds |] eqn:Es; [| discriminate].
    apply IH in Es.
    destruct (getDim arg i) as [n |]; [destruct d as [m |];
      [destruct (m =? n); [| discriminate] |] |];
    injection E as <-; cbn [length]; congruence.
Qed.

(** Static types of arguments for each of [outer]. *)
Definition arg_types (outer : list nat) (types : list sshape) (ranks : list nat) :=
  Forall2 (fun s rank => exists d, length d = rank /\ typed s (outer ++ d)) types ranks.

Lemma rest_lower_typed : forall outer types ranks dims,
  typed dims outer -> arg_types outer types ranks ->
  exists dims', rest_lower dims types ranks = Some dims' /\ typed dims' outer.
Proof.
  intros outer types ranks dims Hd H. revert dims Hd.
  induction H as [| s rank types ranks (d & L & T) H IH]; intros dims Hd; cbn [rest_lower].
  - exists dims. auto.
  - pose proof (typed_length _ _ T) as Ls. pose proof (typed_length _ _ Hd) as Ld.
    rewrite app_length in Ls.
    replace (length s =? rank + length dims) with true by (symmetry; apply Nat.eqb_eq; lia).
    destruct (specialize_typed dims outer s [] d Hd T) as (ds & E & T').
    cbn [length] in E. rewrite E. apply IH; exact T'.
Qed.

Lemma rest_pass_typed : forall outer types ranks dims,
  outer <> [] -> typed dims outer -> arg_types outer types ranks ->
  exists dims', rest_pass dims types ranks = Some dims' /\ typed dims' outer.
Proof.
  intros outer types ranks dims Hne Hd H. revert dims Hd.
  induction H as [| s rank types ranks (d & L & T) H IH]; intros dims Hd; cbn [rest_pass].
  - exists dims. auto.
  - pose proof (typed_length _ _ T) as Ls. pose proof (typed_length _ _ Hd) as Ld.
    rewrite app_length in Ls.
    assert (length outer <> 0) by (destruct outer; [congruence | discriminate]).
    replace (length s <=? rank) with false by (symmetry; apply Nat.leb_gt; lia).
    replace (length s =? rank + length dims) with true by (symmetry; apply Nat.eqb_eq; lia).
    destruct (specialize_typed dims outer s [] d Hd T) as (ds & E & T').
    cbn [length] in E. rewrite E. apply IH; exact T'.
Qed.

Lemma map_nth_typed : forall s outer d, typed s (outer ++ d) ->
  typed (map (fun i => getDim s i) (seq 0 (length outer))) outer.
Proof.
  intros s outer d H. revert s H. induction outer as [| n outer IH]; intros s H.
  - constructor.
  - cbn [length seq map]. inversion H as [| o m s' d' Ho H']; subst. constructor.
    + exact Ho.
    + rewrite <- seq_shift, map_map. apply (IH s' H').
Qed.

Lemma first_lower_typed : forall s outer d rank, length d = rank -> typed s (outer ++ d) ->
  typed (first_lower s rank) outer.
Proof.
  intros s outer d rank L T. unfold first_lower.
  pose proof (typed_length _ _ T) as Ls. rewrite app_length in Ls.
  replace (length s - rank) with (length outer) by lia. apply (map_nth_typed s outer d T).
Qed.

Lemma lower_type_typed : forall outer types ranks result,
  types <> [] -> arg_types outer types ranks ->
  exists dims, lower_type types ranks result = Some (dims ++ result) /\ typed dims outer.
Proof.
  intros outer types ranks result Hne H. unfold lower_type.
  rewrite (forall2_length _ _ _ H), Nat.eqb_refl.
  destruct H as [| s rank types ranks (d & L & T) H]; [congruence |].
  destruct (rest_lower_typed outer types ranks (first_lower s rank)
              (first_lower_typed s outer d rank L T) H) as (ds & E & T').
  rewrite E. exists ds. auto.
Qed.

Lemma first_repeat : forall (o : option nat) c n k, o = None \/ o = Some c ->
  typed (map (fun _ => o) (seq k n)) (repeat c n).
Proof.
  intros o c n k G. revert k. induction n as [| n IH]; intros k; cbn [seq map repeat]; constructor.
  - exact G.
  - apply IH.
Qed.

(** All of [outer] are [c]: reading the size at 0 is as good as at [i]. *)
Lemma first_pass_typed : forall s outer d rank c, length d = rank ->
  typed s (outer ++ d) -> outer = repeat c (length outer) -> outer <> [] ->
  typed (first_pass s rank) outer.
Proof.
  intros s outer d rank c L T R Hne. unfold first_pass.
  pose proof (typed_length _ _ T) as Ls. rewrite app_length in Ls.
  replace (length s - rank) with (length outer) by lia.
  assert (G : getDim s 0 = None \/ getDim s 0 = Some c).
  { apply (getDim_typed s (outer ++ d)); [exact T |]. rewrite R.
    destruct outer; [congruence | reflexivity]. }
  rewrite R at 2. clear - G. generalize (length outer). intros n.
  apply (first_repeat (getDim s 0) c n 0 G).
Qed.

Lemma vec_rank_same : forall outer types ranks c,
  types <> [] -> outer <> [] -> outer = repeat c (length outer) ->
  arg_types outer types ranks -> vec_rank types ranks = length outer.
Proof.
  intros outer types ranks c Ht Ho R H. unfold vec_rank.
  destruct H as [| s rank types ranks (d & L & T) H]; [congruence |].
  pose proof (typed_length _ _ T) as Ls. rewrite app_length in Ls.
  assert (length outer <> 0) by (destruct outer; [congruence | discriminate]).
  replace (length s <=? rank) with false by (symmetry; apply Nat.leb_gt; lia).
  destruct (rest_pass_typed outer types ranks (first_pass s rank) Ho
              (first_pass_typed s outer d rank c L T R Ho) H) as (ds & E & T').
  rewrite E. apply typed_length; exact T'.
Qed.

Lemma vec_rank_one : forall s rank, vec_rank [s] [rank] = length s - rank.
Proof.
  intros s rank. unfold vec_rank. cbn [rest_pass].
  destruct (length s <=? rank) eqn:E.
  - apply Nat.leb_le in E. lia.
  - unfold first_pass. rewrite map_length, seq_length. reflexivity.
Qed.

(** ** The call *)

Definition good_types {V} (types : list sshape) (args : list (tensor V)) :=
  Forall2 (fun s t => typed s (t_dims t)) types args.

Lemma arg_types_of {V} (f : callee V) outer types args :
  vector_args f outer args -> good_types types args -> arg_types outer types (f_ranks f).
Proof.
  unfold vector_args, good_types, arg_types. intros H. revert types.
  induction H as [| t rank args ranks (d & L & E) H IH]; intros types G; inversion G; subst.
  - constructor.
  - constructor; [| apply IH; assumption]. exists d. rewrite <- E. auto.
Qed.

Lemma call_ok {V} (f : callee V) outer inner types args :
  vector_args f outer args -> good_types types args -> returns f inner -> args <> [] ->
  outer <> [] -> vec_rank types (f_ranks f) = length outer ->
  exists r, call f types args = Done r /\ for_each f outer inner args r.
Proof.
  intros Hv Hg (Hs & Hr) Hne Ho Hk.
  pose proof (arg_types_of f outer types args Hv Hg) as Ha.
  destruct (lower_type_typed outer types (f_ranks f) (f_shape f)) as (dims & E & T).
  { intros ->. inversion Hg; subst. congruence. }
  { exact Ha. }
  unfold call. rewrite E, Hk.
  assert (length outer <> 0) by (destruct outer; [congruence | discriminate]).
  assert (HF : Forall (fun t => exists d, t_dims t = outer ++ d) args).
  { clear - Hv. unfold vector_args in Hv.
    induction Hv as [| t rank args ranks (d & L & E) H IH]; constructor; eauto. }
  destruct args as [| t args]; [congruence |].
  assert (exists d, t_dims t = outer ++ d) as (d & Et) by (inversion HF; assumption).
  destruct (loop_ok f (t :: args) outer inner HF Hr (nest outer) (fun _ => None)
              (fun i Hi => proj1 (nest_in outer i) Hi)) as (buf & El & Hb).
  assert (Hsc : scalarize f (length outer) (dims ++ f_shape f) (t :: args)
                = Done (mkT (outer ++ inner) buf)).
  { unfold scalarize. rewrite Hs, Et.
    pose proof (alloc_typed dims outer inner [] d T) as Hal. cbn [app length] in Hal.
    rewrite Hal. unfold bounds. rewrite app_length.
    replace (length outer <=? length outer + length d) with true
      by (symmetry; apply Nat.leb_le; lia).
    rewrite firstn_app_len, El. reflexivity. }
  exists (mkT (outer ++ inner) buf). split.
  - destruct (length outer) as [| n]; [lia | exact Hsc].
  - split; [reflexivity |]. cbn [t_at]. intros i j Hi _. rewrite (Hb i j Hi).
    destruct (in_dec (list_eq_dec Nat.eq_dec) i (nest outer)) as [Y | N]; [reflexivity |].
    destruct N. apply nest_in; exact Hi.
Qed.

(** The arguments of the declared ranks: the call is left as it is. *)
Lemma rest_lower_nil : forall (types : list sshape) ranks, length types = length ranks ->
  map (@length _) types = ranks -> rest_lower [] types ranks = Some [].
Proof.
  induction types as [| s types IH]; intros [| rank ranks] L E; cbn in *; try discriminate;
    [reflexivity |].
  injection E as <- E. rewrite Nat.add_0_r, Nat.eqb_refl. apply IH; auto.
Qed.

Lemma call_plain {V} (f : callee V) (types : list sshape) args :
  map (@length _) types = f_ranks f ->
  call f types args
  = let r := f_body f args in Done (mkT (t_dims r) (fun j => Some (t_at r j))).
Proof.
  intros E. unfold call.
  assert (L : length types = length (f_ranks f)) by (rewrite <- E; symmetry; apply map_length).
  assert (Hl : lower_type types (f_ranks f) (f_shape f) = Some (f_shape f)).
  { unfold lower_type. rewrite (proj2 (Nat.eqb_eq _ _) L).
    destruct types as [| s types], (f_ranks f) as [| rank ranks]; try discriminate;
      [reflexivity |].
    cbn [map] in E. injection E as <- E. unfold first_lower. rewrite Nat.sub_diag. cbn [seq map].
    rewrite rest_lower_nil; [reflexivity | injection L; auto | exact E]. }
  rewrite Hl.
  assert (Hk : vec_rank types (f_ranks f) = 0).
  { unfold vec_rank. destruct types as [| s types], (f_ranks f) as [| rank ranks];
      try discriminate; [reflexivity |].
    cbn [map] in E. injection E as <- E. rewrite Nat.leb_refl. reflexivity. }
  rewrite Hk. unfold direct.
  rewrite (proj2 (idx_eqb_spec _ _) E), Nat.eqb_refl. reflexivity.
Qed.

(** ** Mismatches the types show *)

Lemma specialize_keeps : forall dims arg i dims' k n,
  specialize dims arg i = Some dims' -> nth_error dims k = Some (Some n) ->
  nth_error dims' k = Some (Some n) /\ (getDim arg (i + k) = None \/ getDim arg (i + k) = Some n).
Proof.
  induction dims as [| d dims IH]; intros arg i dims' k n E Hk; [destruct k; discriminate |].
  cbn [specialize] in E.
  destruct (specialize dims arg (S i)) as [ds |] eqn:Es; [| discriminate].
  destruct k as [| k]; cbn [nth_error] in Hk.
  - injection Hk as ->. rewrite Nat.add_0_r. destruct (getDim arg i) as [m |].
    + destruct (n =? m) eqn:Em; [| discriminate]. apply Nat.eqb_eq in Em as <-.
      injection E as <-. auto.
    + injection E as <-. auto.
  - destruct (IH arg (S i) ds k n Es Hk) as (A & B).
    rewrite <- Nat.add_succ_comm.
    destruct (getDim arg i) as [m |]; [destruct d as [p |];
      [destruct (p =? m); [| discriminate] |] |];
    injection E as <-; auto.
Qed.

Lemma rest_lower_keeps : forall types ranks dims dims' k n,
  length types = length ranks ->
  rest_lower dims types ranks = Some dims' -> nth_error dims k = Some (Some n) ->
  Forall (fun s => getDim s k = None \/ getDim s k = Some n) types.
Proof.
  induction types as [| s types IH]; intros [| rank ranks] dims dims' k n L E Hk;
    try discriminate L; constructor; cbn [rest_lower] in E;
    destruct (length s =? rank + length dims); try discriminate;
    destruct (specialize dims s 0) as [ds |] eqn:Es; try discriminate;
    destruct (specialize_keeps _ _ _ _ _ _ Es Hk) as (A & B).
  - exact B.
  - apply (IH ranks ds dims' k n); [cbn [length] in L; lia | exact E | exact A].
Qed.

(** Two static sizes that differ from that of the first argument. *)
Lemma mismatch_refused {V} (f : callee V) (s : sshape) (types : list sshape) args k n m s' :
  k < length s - hd 0 (f_ranks f) -> nth_error s k = Some (Some n) -> In s' types ->
  nth_error s' k = Some (Some m) -> n <> m -> call f (s :: types) args = Refused.
Proof.
  intros Hk Hn Hin Hm D. unfold call.
  destruct (lower_type (s :: types) (f_ranks f) (f_shape f)) as [result |] eqn:E; [| reflexivity].
  exfalso. unfold lower_type in E.
  destruct (length (s :: types) =? length (f_ranks f)) eqn:L; [| discriminate E].
  apply Nat.eqb_eq in L. destruct (f_ranks f) as [| rank ranks]; [discriminate L |].
  cbn [hd] in Hk.
  destruct (rest_lower (first_lower s rank) types ranks) as [ds |] eqn:Er; [| discriminate E].
  assert (H1 : nth_error (first_lower s rank) k = Some (Some n)).
  { unfold first_lower. rewrite nth_error_map.
    rewrite (nth_error_nth' _ 0) by (rewrite seq_length; exact Hk).
    rewrite seq_nth by exact Hk. cbn [option_map plus]. unfold getDim.
    rewrite (nth_error_nth s k None Hn). reflexivity. }
  pose proof (rest_lower_keeps types ranks _ _ _ _ ltac:(cbn [length] in L; lia) Er H1) as Ha.
  rewrite Forall_forall in Ha. specialize (Ha s' Hin). unfold getDim in Ha.
  rewrite (nth_error_nth s' k None Hm) in Ha. destruct Ha as [Ha | Ha]; congruence.
Qed.

(** ** Where it fails *)

Lemma loop_fails {V} (f : callee V) args alloc todo i :
  In i todo -> (forall buf, body f args alloc i buf = None) ->
  forall buf, loop f args alloc todo buf = None.
Proof.
  induction todo as [| k todo IH]; intros Hi Hb buf; [destruct Hi |].
  cbn [loop]. destruct Hi as [-> | Hi]; [rewrite Hb; reflexivity |].
  destruct (body f args alloc k buf); [apply IH; assumption | reflexivity].
Qed.

Lemma call_uneven {V} (f : callee V) outer types t u args c k n :
  vector_args f outer (t :: u :: args) ->
  types = map (fun t => map Some (t_dims t)) (t :: u :: args) ->
  nth_error outer 0 = Some c -> nth_error outer k = Some n -> n <> c ->
  call f types (t :: u :: args) = Refused.
Proof.
  intros Hv -> Hc Hn D. unfold vector_args in Hv.
  inversion Hv as [| t' r1 a1 rs1 (d & Ld & Ed) Hv1 E1 E2]; subst.
  inversion Hv1 as [| u' r2 a2 rs2 (e & Le & Ee) Hv2 E3 E4]; subst.
  unfold call. destruct (lower_type _ _ _) as [result |]; [| reflexivity].
  cbn [map]. rewrite Ed, Ee.
  assert (Lk : k < length outer) by (apply nth_error_Some; congruence).
  assert (Hr : vec_rank (map Some (outer ++ d) :: map Some (outer ++ e)
                          :: map (fun t => map Some (t_dims t)) args)
                        (length d :: length e :: rs2) = 0).
  { unfold vec_rank. rewrite map_length, app_length.
    replace (length outer + length d <=? length d) with false
      by (symmetry; apply Nat.leb_gt; lia).
    cbn [rest_pass]. rewrite map_length, app_length.
    destruct (length outer + length e <=? length e); [reflexivity |].
    destruct (length outer + length e =? _); [| reflexivity].
    destruct (specialize (first_pass (map Some (outer ++ d)) (length d))
                (map Some (outer ++ e)) 0) as [ds |] eqn:Es; [| reflexivity].
    exfalso. apply specialize_keeps with (k := k) (n := c) in Es.
    - destruct Es as (_ & G). cbn [plus] in G. unfold getDim in G.
      rewrite (nth_error_nth (map Some (outer ++ e)) k None (x := Some n)) in G.
      + destruct G; congruence.
      + rewrite nth_error_map, nth_error_app1, Hn by exact Lk. reflexivity.
    - unfold first_pass. rewrite map_length, app_length, nth_error_map.
      rewrite (nth_error_nth' _ 0) by (rewrite seq_length; lia).
      cbn [option_map]. f_equal. unfold getDim.
      apply nth_error_nth. rewrite nth_error_map, nth_error_app1, Hc by lia. reflexivity. }
  rewrite <- E2. rewrite Hr. unfold direct. rewrite <- E2. cbn [map].
  rewrite map_length, app_length.
  destruct (idx_eqb _ _) eqn:E; [| reflexivity].
  apply idx_eqb_spec in E. injection E. lia.
Qed.

Lemma call_shorter {V} (f : callee V) t u n m :
  f_ranks f = [0; 0] -> returns f [] -> t_dims t = [n] -> t_dims u = [m] -> m < n ->
  call f [[None]; [None]] [t; u] = Undefined.
Proof.
  intros Hr (Hs & Hf) Ht Hu L. unfold call, lower_type, vec_rank. rewrite Hr, Hs.
  cbn -[Nat.ltb nest loop]. rewrite Ht. cbn -[Nat.ltb nest loop].
  rewrite (loop_fails f [t; u] [n] (nest [n]) [m]); [reflexivity | |].
  - apply nest_in. repeat constructor. exact L.
  - intros buf. unfold body, slices, slice. rewrite Ht, Hu. cbn -[Nat.ltb].
    rewrite Nat.ltb_irrefl. destruct (m <? n); reflexivity.
Qed.

Lemma call_longer {V} (f : callee V) t u n m :
  f_ranks f = [0; 0] -> returns f [] -> t_dims t = [n] -> t_dims u = [m] -> n < m ->
  exists r, call f [[None]; [None]] [t; u] = Done r /\ t_dims r = [n].
Proof.
  intros Hr (Hs & Hf) Ht Hu L. unfold call, lower_type, vec_rank. rewrite Hr, Hs.
  cbn -[Nat.ltb nest loop]. rewrite Ht. cbn -[Nat.ltb nest loop].
  assert (H : forall todo buf, (forall i, In i todo -> index_of i [n]) ->
              exists b, loop f [t; u] [n] todo buf = Some b).
  { induction todo as [| k todo IH]; intros buf Hk; [eexists; reflexivity |].
    assert (Hi : index_of k [n]) by (apply Hk; left; reflexivity).
    inversion Hi as [| x ? k' ? Hx Hn]; subst. inversion Hn; subst.
    cbn [loop]. unfold body, slices, slice. rewrite Ht, Hu. cbn -[Nat.ltb loop].
    rewrite (proj2 (Nat.ltb_lt x n) Hx), (proj2 (Nat.ltb_lt x m)) by lia.
    cbn -[Nat.ltb loop]. rewrite Hf. cbn -[Nat.ltb loop].
    apply IH. intros i Hin. apply Hk. right; exact Hin. }
  destruct (H (nest [n]) (fun _ => None) (fun i Hi => proj1 (nest_in [n] i) Hi)) as (b & E).
  rewrite E. eexists. split; reflexivity.
Qed.

Lemma call_dynamic_scalar {V} (f : callee V) t n :
  f_ranks f = [0] -> f_shape f = [None] -> t_dims t = [n] ->
  call f [[Some n]] [t] = Undefined.
Proof.
  intros Hr Hs Ht. unfold call, lower_type, vec_rank. rewrite Hr, Hs. cbn. rewrite Ht.
  reflexivity.
Qed.

Lemma call_dynamic_vector {V} (f : callee V) t n m k :
  f_ranks f = [1] -> f_shape f = [None] -> t_dims t = [n; m] ->
  (forall ts, t_dims (f_body f ts) = [k]) -> 0 < n -> k <> m ->
  call f [[Some n; Some m]] [t] = Undefined.
Proof.
  intros Hr Hs Ht Hf L D. unfold call, lower_type, vec_rank. rewrite Hr, Hs.
  cbn -[Nat.ltb nest loop]. rewrite Ht. cbn -[Nat.ltb nest loop].
  rewrite (loop_fails f [t] [n; m] (nest [n]) [0]); [reflexivity | |].
  - apply nest_in. repeat constructor. exact L.
  - intros buf. unfold body, slices, slice. rewrite Ht. cbn -[Nat.ltb idx_eqb].
    rewrite (proj2 (Nat.ltb_lt 0 n) L). cbn -[Nat.ltb idx_eqb]. rewrite Hf.
    destruct (idx_eqb [k] [m]) eqn:E; [| reflexivity].
    apply idx_eqb_spec in E. congruence.
Qed.
