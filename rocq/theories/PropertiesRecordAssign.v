(** C112: assignments to records and to their components change the elements they name. *)
From Coq Require Import List Arith Bool ZArith Lia.
Import ListNotations.
From Verif Require Import RecordRefModel RecordRefSpec RecordAssignModel RecordAssignSpec RecordAssignProofs.

(** An assignment to a component of a record variable, with subscripts on the variable,
    on the component, on both or on none, stores each element of the value in the
    element of the component's variable that the reference names.
    Missing: components of components, below. *)
Theorem C112_component_partial : forall vars v s0 f s1 x j p i t,
  names vars [(v, s0); (f, s1)] j p i t -> length j = v_rank x ->
  exists a w, lower_assign [(v, s0); (f, s1)] x = Some a /\ write vars a = Some w /\
    stores w (total_rank vars [(v, s0); (f, s1)]) j p i.
Proof. exact component_write. Qed.
Print Assumptions C112_component_partial.

(** Variables: 1 is an array of records {2: scalar, 3: vector, 4: record {5: vector}},
    6 is a scalar record {4: vector of records {5: vector}}, 4 is a record {5: vector},
    7 is an array of records {8: record {9: record {2: scalar}}}. *)
Definition inner : list (nat * (nat * rty)) := [(5, (1, TBase))].
Definition vars1 : rty :=
  TRec [(1, (1, TRec [(2, (0, TBase)); (3, (1, TBase)); (4, (0, TRec inner))]));
        (6, (0, TRec [(4, (1, TRec inner))]));
        (4, (0, TRec inner));
        (7, (1, TRec [(8, (0, TRec [(9, (0, TRec [(2, (0, TBase))]))]))]))].

(** r[4].v[:] := x and r.v[4] := x. *)
Example C112_component_case : forall a b,
  (exists w, option_map (write vars1) (lower_assign [(1, [At 4]); (3, [])] (mkV [] 1 TBase)) = Some (Some w) /\
     stores w 2 [b] [1; 3] [4%Z; b]) /\
  (exists w, option_map (write vars1) (lower_assign [(1, []); (3, [At 4])] (mkV [] 1 TBase)) = Some (Some w) /\
     stores w 2 [a] [1; 3] [a; 4%Z]).
Proof.
  intros a b. split.
  - assert (N : names vars1 [(1, [At 4]); (3, [])] ([] ++ ([b] ++ [])) [1; 3] ([4%Z] ++ ([b] ++ [])) TBase).
    { eapply names_cons; [reflexivity | apply picked_at, picked_rest; reflexivity|].
      eapply names_cons; [reflexivity | apply picked_rest; reflexivity | constructor]. }
    destruct (C112_component_partial _ _ _ _ _ (mkV [] 1 TBase) _ _ _ _ N eq_refl) as (x & w & E & W & Q).
    exists w. rewrite E. cbn [option_map]. rewrite W. split; [reflexivity | exact Q].
  - assert (N : names vars1 [(1, []); (3, [At 4])] ([a] ++ ([] ++ [])) [1; 3] ([a] ++ ([4%Z] ++ [])) TBase).
    { eapply names_cons; [reflexivity | apply picked_rest; reflexivity|].
      eapply names_cons; [reflexivity | apply picked_at, picked_rest; reflexivity | constructor]. }
    destruct (C112_component_partial _ _ _ _ _ (mkV [] 1 TBase) _ _ _ _ N eq_refl) as (x & w & E & W & Q).
    exists w. rewrite E. cbn [option_map]. rewrite W. split; [reflexivity | exact Q].
Qed.

(** An assignment of a scalar to a component of a component stores it in the element
    the reference names. Missing: arrays, and longer references, below. *)
Theorem C112_scalar_partial : forall vars v s0 f s1 g s2 x p i t,
  names vars [(v, s0); (f, s1); (g, s2)] [] p i t -> v_rank x = 0 ->
  exists a w, lower_assign [(v, s0); (f, s1); (g, s2)] x = Some a /\ write vars a = Some w /\
    stores w (total_rank vars [(v, s0); (f, s1); (g, s2)]) [] p i.
Proof. intros. eapply scalar_write; eauto. Qed.
Print Assumptions C112_scalar_partial.

(** r[4].b.x[2] := x. *)
Example C112_scalar_case :
  exists w, option_map (write vars1) (lower_assign [(1, [At 4]); (4, []); (5, [At 2])] (mkV [] 0 TBase)) = Some (Some w) /\
    stores w 2 [] [1; 4; 5] [4%Z; 2%Z].
Proof.
  assert (N : names vars1 [(1, [At 4]); (4, []); (5, [At 2])] ([] ++ ([] ++ ([] ++ []))) [1; 4; 5] ([4%Z] ++ ([] ++ ([2%Z] ++ []))) TBase).
  { eapply names_cons; [reflexivity | apply picked_at, picked_rest; reflexivity|].
    eapply names_cons; [reflexivity | apply picked_rest; reflexivity|].
    eapply names_cons; [reflexivity | apply picked_at, picked_rest; reflexivity | constructor]. }
  destruct (C112_scalar_partial _ _ _ _ _ _ _ (mkV [] 0 TBase) _ _ _ N eq_refl) as (x & w & E & W & Q).
  exists w. rewrite E. cbn [option_map]. rewrite W. split; [reflexivity | exact Q].
Qed.

(** Without arrays, an assignment to a component at any depth sets the variable of that
    component. *)
Theorem C112_no_arrays : forall vars v es x p i t,
  es <> [] -> (forall e, In e es -> snd e = []) -> total_rank vars ((v, []) :: es) = 0 ->
  names vars ((v, []) :: es) [] p i t ->
  exists a, lower_assign ((v, []) :: es) x = Some a /\ write vars a = Some (p, []).
Proof.
  intros vars v es x p i t NE S0 T N.
  destruct (names_inv _ _ _ _ _ _ _ _ N) as (r & t1 & j0 & i0 & j' & p' & i' & F & P & N' & Hj & -> & ->).
  cbn [total_rank fst] in T. rewrite F in T.
  assert (C : concat (map snd es) = []).
  { clear - S0. induction es as [|e es IH]; [reflexivity|]. cbn [map concat].
    rewrite (S0 e (or_introl eq_refl)). apply IH. intros; apply S0; now right. }
  destruct es as [|e es]; [congruence|].
  eexists. split; [reflexivity|].
  cbv beta iota delta [write]. rewrite C. rewrite F.
  replace r with 0 by lia. cbn [app].
  erewrite plain_write; [reflexivity | exact NE | exact S0 | exact N' | lia].
Qed.
Print Assumptions C112_no_arrays.

(** a.b.c.d := x. *)
Example C112_no_arrays_case :
  let vars := TRec [(7, (0, TRec [(8, (0, TRec [(9, (0, TRec [(2, (0, TBase))]))]))]))] in
  exists a, lower_assign [(7, []); (8, []); (9, []); (2, [])] (mkV [] 0 TBase) = Some a /\
    write vars a = Some ([7; 8; 9; 2], []).
Proof. eexists. split; vm_compute; reflexivity. Qed.

(** The assignment of a record without records in it to a variable sets each component
    from the same component of the value, and nothing else. *)
Theorem C112_record_partial : forall vars v r fs x,
  field vars v = Some (r, TRec fs) -> NoDup (map fst fs) -> flat fs -> v_ty x = TRec fs -> v_rank x = 0 ->
  exists l, unpack_assign (SetVar v [] x) = Some l /\
    (forall a, In a l -> exists f rf, In (f, (rf, TBase)) fs /\ write vars a = Some ([v; f], []) /\
       (exists root path ss am, a = SetComp root path ss am (mkV (v_comps x ++ [f]) rf TBase))) /\
    (forall f rf t, In (f, (rf, t)) fs -> exists a, In a l /\ write vars a = Some ([v; f], [])).
Proof. intros; eapply flat_record; eauto. Qed.
Print Assumptions C112_record_partial.
Example C112_record_case :
  let fs := [(2, (0, TBase)); (3, (1, TBase))] in
  option_map (map (write (TRec [(1, (0, TRec fs))]))) (unpack_assign (SetVar 1 [] (mkV [] 0 (TRec fs)))) =
    Some [Some ([1; 2], []); Some ([1; 3], [])] /\ flat fs /\ NoDup (map fst fs).
Proof.
  split; [vm_compute; reflexivity|]. split.
  - intros f r t [E|[E|[]]]; congruence.
  - cbn. constructor; [intros [E|[]]; discriminate|]. constructor; [intros []|constructor].
Qed.

(** Indices are dropped: r[k] := x, with x a record, assigns every record of the array. *)
Theorem C112_index_refuted : forall vars v ss x l a w,
  v_rank x = 0 -> unpack_assign (SetVar v ss x) = Some l -> In a l -> write vars a = Some w ->
  snd w = [].
Proof.
  intros vars v ss x l a w K U Hin W. cbn [unpack_assign] in U.
  destruct (v_ty x) as [|fs]; [discriminate|]. injection U as <-.
  apply in_map_iff in Hin. destruct Hin as [c [<- _]]. rewrite K in W. cbn [repeat write] in W.
  destruct (field vars v) as [[r t]|]; [|discriminate]. cbn [finish] in W.
  destruct (field t (fst c)) as [[r' t']|]; [|discriminate]. injection W as <-. reflexivity.
Qed.
Print Assumptions C112_index_refuted.
Example C112_index_case : forall k,
  let vars := TRec [(1, (1, TRec [(2, (0, TBase)); (3, (0, TBase))]))] in
  option_map (map (write vars)) (unpack_assign (SetVar 1 [At k] (mkV [] 0 (TRec [(2, (0, TBase)); (3, (0, TBase))])))) =
    Some [Some ([1; 2], []); Some ([1; 3], [])].
Proof. intros; vm_compute; reflexivity. Qed.

(** The name of the variable is dropped: an assignment of a record to a component [p] of
    [v] becomes assignments to components of the variable that is called [p]. *)
Theorem C112_nested_refuted : forall v p ps ss am x l a,
  unpack_assign (SetComp [v] (p :: ps) ss am x) = Some l -> In a l ->
  exists path ss' am' x', a = SetComp [p] path ss' am' x'.
Proof.
  intros v p ps ss am x l a U Hin. cbn [unpack_assign] in U.
  destruct (v_ty x) as [|fs]; [discriminate|]. injection U as <-.
  apply in_map_iff in Hin. destruct Hin as [c [<- _]]. repeat eexists.
Qed.
Print Assumptions C112_nested_refuted.
(** With v a record that has a record b, [v.b := x] sets the variable b.x. *)
Example C112_nested_case :
  let vars := TRec [(1, (0, TRec [(4, (0, TRec inner))])); (4, (0, TRec inner))] in
  option_map unpack_assign (lower_assign [(1, []); (4, [])] (mkV [] 0 (TRec inner))) =
    Some (Some [SetComp [4] [5] [] [0; 0; 0] (mkV [5] 1 TBase)]) /\
  write vars (SetComp [4] [5] [] [0; 0; 0] (mkV [5] 1 TBase)) = Some ([4; 5], []).
Proof. split; vm_compute; reflexivity. Qed.

(** The counts of subscripts are shifted with a component of a component: a.b[k].c := x,
    with x an array, assigns the whole of a.b.c for any k. *)
Theorem C112_array_refuted : exists vars ref x,
  forall k y, names vars (ref k) [y] [6; 4; 5] [k; y] TBase /\
    option_map (write vars) (lower_assign (ref k) x) = Some (Some ([6; 4; 5], [colon])).
Proof.
  exists vars1, (fun k => [(6, []); (4, [At k]); (5, [])]), (mkV [] 1 TBase).
  intros k y. split; [|vm_compute; reflexivity].
  change (names vars1 [(6, []); (4, [At k]); (5, [])] ([] ++ ([] ++ ([y] ++ []))) [6; 4; 5] ([] ++ ([k] ++ ([y] ++ []))) TBase).
  eapply names_cons; [reflexivity | apply picked_rest; reflexivity|].
  eapply names_cons; [reflexivity | apply picked_at, picked_rest; reflexivity|].
  eapply names_cons; [reflexivity | apply picked_rest; reflexivity | constructor].
Qed.
Print Assumptions C112_array_refuted.

(** With a longer reference the counts go past the end of the subscripts, even for a
    scalar: a[k].b.c.d := x. *)
Theorem C112_long_refuted : exists vars ref x,
  forall k, names vars (ref k) [] [7; 8; 9; 2] [k] TBase /\ v_rank x = 0 /\
    option_map (write vars) (lower_assign (ref k) x) = Some None.
Proof.
  exists vars1, (fun k => [(7, [At k]); (8, []); (9, []); (2, [])]), (mkV [] 0 TBase).
  intros k. split; [|split; vm_compute; reflexivity].
  change (names vars1 [(7, [At k]); (8, []); (9, []); (2, [])] ([] ++ ([] ++ ([] ++ ([] ++ [])))) [7; 8; 9; 2] ([k] ++ ([] ++ ([] ++ ([] ++ [])))) TBase).
  eapply names_cons; [reflexivity | apply picked_at, picked_rest; reflexivity|].
  eapply names_cons; [reflexivity | apply picked_rest; reflexivity|].
  eapply names_cons; [reflexivity | apply picked_rest; reflexivity|].
  eapply names_cons; [reflexivity | apply picked_rest; reflexivity | constructor].
Qed.
Print Assumptions C112_long_refuted.
