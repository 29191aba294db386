(** C111: references to components of records.

    A reference such as [a[2].b[3].c] names an element of an array of records of
    arrays of records. A user relies on it reading that element, also after the
    records have been unpacked into variables. *)
From Coq Require Import List Arith Bool ZArith Lia.
Import ListNotations.
From Verif Require Import RecordRefModel RecordRefSpec RecordRefProofs.

(** A reference is lowered to operations that read the elements it names, if its
    subscripts in the middle come after no kept dimension and the last name has all
    its subscripts or none. *)
Theorem C111_reference_partial : forall vars ref j p i t,
  ref <> [] -> regular vars ref -> names vars ref j p i t ->
  exists v ch rank, lower vars ref = Some (v, ch, rank, t) /\ length j = rank /\ elem [v] ch j = (p, i).
Proof. exact lower_names. Qed.
Print Assumptions C111_reference_partial.

(** After the record variables have been unpacked, in any order, a read of a
    component that is not a record, or of a variable that is not, reads a variable
    that is declared, and the same element. *)
Theorem C111_unpacked_partial : forall fields reads ps st n v ch,
  NoDup (map fst fields) -> unpack_all ps (ustart fields reads) = Some st -> no_records st ->
  nth_error reads n = Some (v, ch) ->
  component_read fields (v, ch) TBase \/ plain_read fields (v, ch) ->
  exists rd r, nth_error (u_reads st) n = Some rd /\ In (rd_root rd, (r, TBase)) (u_vars st) /\
    forall r0 out j, ranked r0 ch out -> length j = out ->
      elem (rd_root rd) (rd_chain rd) j = elem [v] ch j.
Proof.
  intros fields reads ps st n v ch N E Nr Hn [Hc|Hp].
  - destruct (unpacked_component fields reads ps st n v ch TBase N E Nr Hn Hc) as (rd & Hr & f & k & views & outer & -> & Vo & -> & _ & _ & Hb).
    destruct (Hb eq_refl) as (r & Hin). eexists; exists r. split; [exact Hr|]. split; [exact Hin|].
    intros r0 out j R L. cbn [rd_root rd_chain]. exact (push_elem outer k f views [v] r0 out j Vo R L).
  - destruct (unpacked_plain fields reads ps st n v ch N E Hn Hp) as (Hr & r & Hin).
    eexists; exists r. split; [exact Hr|]. split; [exact Hin|]. reflexivity.
Qed.
Print Assumptions C111_unpacked_partial.

(** ** Examples *)

(** Variable 0 is an array of records with the component 1, a scalar, and the
    component 2, a vector; variable 3 is a matrix. *)
Definition ex_record : rty := TRec [(1, (0, TBase)); (2, (1, TBase))].
Definition ex_fields : list (nat * (nat * rty)) := [(0, (1, ex_record)); (3, (2, TBase))].
(** a[5].y[7] and a.x *)
Definition ref1 : list entry := [(0, [At 4%Z]); (2, [At 6%Z])].
Definition ref2 : list entry := [(0, []); (1, [])].

Example C111_reference_case : exists ch, lower (TRec ex_fields) ref1 = Some (0, ch, 0, TBase) /\ elem [0] ch [] = ([0; 2], [4; 6]%Z).
Proof.
  assert (N : names (TRec ex_fields) ref1 [] [0; 2] [4; 6]%Z TBase).
  { apply (names_cons _ 0 [At 4%Z] _ 1 ex_record TBase [] [4%Z] [] [2] [6%Z]); [reflexivity| |].
    - apply picked_at, picked_rest. reflexivity.
    - apply (names_cons _ 2 [At 6%Z] _ 1 TBase TBase [] [6%Z] [] [] []); [reflexivity| |constructor].
      apply picked_at, picked_rest. reflexivity. }
  destruct (C111_reference_partial (TRec ex_fields) ref1 [] [0; 2] [4; 6]%Z TBase) as (v & ch & rank & E & L & H);
    [discriminate|cbn; auto|exact N|].
  exists ch. cbn in E. injection E as <- <- <-. split; [reflexivity|exact H].
Qed.

Definition ex_reads : list (nat * list cop) :=
  [(0, [CView [At 6%Z]; CComp 0 2; CView [At 4%Z]]); (3, []); (0, [CComp 1 1])].
Example C111_unpacked_case : exists st, unpack_all [[0]] (ustart ex_fields ex_reads) = Some st /\ no_records st /\
  u_reads st = [mkRead [0; 2] [CView [At 6%Z]; CView [At 4%Z]] false; mkRead [3] [] true; mkRead [0; 1] [] false] /\
  component_read ex_fields (0, [CView [At 6%Z]; CComp 0 2; CView [At 4%Z]]) TBase /\ plain_read ex_fields (3, []).
Proof.
  eexists. split; [reflexivity|]. split; [|split; [reflexivity|split]].
  - intros p r t [H|[H|[H|[]]]]; injection H as <- <- <-; reflexivity.
  - exists 1, [(1, (0, TBase)); (2, (1, TBase))], 2, 1, 0, [CView [At 4%Z]], [CView [At 6%Z]].
    split; [left; reflexivity|]. split; [|split; [reflexivity|split]].
    + constructor; [intros [H|[]]; discriminate|]. constructor; [intros []|constructor].
    + intros c [<-|[]]. eauto.
    + right; left; reflexivity.
  - exists 2. right; left; reflexivity.
Qed.

(** ** Where it fails *)

(** A subscript in the middle, after an array of records without subscripts, is
    used for the dimension of the array: [a.b[2].c] reads [a[2].b[j].c] where it
    should read [a[j].b[2].c]. *)
Definition mid_fields : rty := TRec [(0, (1, TRec [(1, (1, TRec [(2, (0, TBase))]))]))].
Theorem C111_middle_refuted : ~ forall vars ref j p i t v ch rank,
  names vars ref j p i t -> lower vars ref = Some (v, ch, rank, t) -> elem [v] ch j = (p, i).
Proof.
  intros C. specialize (C mid_fields [(0, []); (1, [At 1%Z]); (2, [])] [4]%Z [0; 1; 2] [4; 1]%Z TBase 0
    [CComp 1 2; CView [At 1%Z]; CComp 1 1] 1).
  assert (X : elem [0] [CComp 1 2; CView [At 1%Z]; CComp 1 1] [4]%Z = ([0; 1; 2], [4; 1]%Z)).
  { apply C; [|reflexivity].
    apply (names_cons mid_fields 0 [] _ 1 (TRec [(1, (1, TRec [(2, (0, TBase))]))]) TBase [4%Z] [4%Z] [] [1; 2] [1%Z]);
      [reflexivity|apply picked_rest; reflexivity|].
    apply (names_cons _ 1 [At 1%Z] _ 1 (TRec [(2, (0, TBase))]) TBase [] [1%Z] [] [2] []);
      [reflexivity|apply picked_at, picked_rest; reflexivity|].
    apply (names_cons _ 2 [] _ 0 TBase TBase [] [] [] [] []); [reflexivity|apply picked_rest; reflexivity|constructor]. }
  vm_compute in X. discriminate.
Qed.
Print Assumptions C111_middle_refuted.

(** If the last name has fewer subscripts than dimensions they are used for its
    last dimensions: [r.m[2]] is the second column of the matrix, not its second row. For
    a variable that is not in a record it is the row. *)
Definition last_fields : rty := TRec [(0, (0, TRec [(1, (2, TBase))])); (2, (2, TBase))].
Theorem C111_last_refuted : ~ forall vars ref j p i t v ch rank,
  (length ref <= 2)%nat -> names vars ref j p i t -> lower vars ref = Some (v, ch, rank, t) -> elem [v] ch j = (p, i).
Proof.
  intros C. specialize (C last_fields [(0, []); (1, [At 1%Z])] [4]%Z [0; 1] [1; 4]%Z TBase 0
    [CView [colon; At 1%Z]; CComp 0 1] 1 (le_n 2)).
  assert (X : elem [0] [CView [colon; At 1%Z]; CComp 0 1] [4]%Z = ([0; 1], [1; 4]%Z)).
  { apply C; [|reflexivity].
    apply (names_cons last_fields 0 [] _ 0 (TRec [(1, (2, TBase))]) TBase [] [] [4%Z] [1] [1; 4]%Z);
      [reflexivity|apply picked_rest; reflexivity|].
    apply (names_cons _ 1 [At 1%Z] _ 2 TBase TBase [4%Z] [1; 4]%Z [] [] []); [reflexivity| |constructor].
    apply picked_at, picked_rest. reflexivity. }
  vm_compute in X. discriminate.
Qed.
Print Assumptions C111_last_refuted.
Example C111_last_variable : exists ch, lower last_fields [(2, [At 1%Z])] = Some (2, ch, 1, TBase) /\ elem [2] ch [4]%Z = ([2], [1; 4]%Z).
Proof. eexists. split; reflexivity. Qed.

(** A component of something that is not a record is not an error: it is the
    thing itself. *)
Theorem C111_not_record_refuted : ~ forall vars ref v ch rank t,
  lower vars ref = Some (v, ch, rank, t) -> exists j p i, names vars ref j p i t.
Proof.
  intros C. destruct (C (TRec [(0, (0, TBase))]) [(0, []); (7, [])] 0 [] 0 TBase eq_refl) as (j & p & i & N).
  inversion N as [|? ? ? ? r t' ? j1 i1 j2 p2 i2 Hf _ N2]; subst. cbn in Hf. injection Hf as <- <-.
  inversion N2 as [|? ? ? ? r2 t2 ? j3 i3 j4 p4 i4 Hf2 _ _]; subst. discriminate.
Qed.
Print Assumptions C111_not_record_refuted.

(** A read of a component of a component: the read that the first unpacking makes is
    not in the table, so the second one does not change it. In every order of the
    unpackings it ends up with a variable that is not declared. *)
Theorem C111_nested_refuted : forall fields reads ps st n v ch fs,
  NoDup (map fst fields) -> unpack_all ps (ustart fields reads) = Some st -> no_records st ->
  nth_error reads n = Some (v, ch) -> component_read fields (v, ch) (TRec fs) ->
  exists rd, nth_error (u_reads st) n = Some rd /\ forall x, ~ In (rd_root rd, x) (u_vars st).
Proof.
  intros fields reads ps st n v ch fs N E Nr Hn Hc.
  destruct (unpacked_component fields reads ps st n v ch (TRec fs) N E Nr Hn Hc) as (rd & Hr & f & k & views & outer & _ & _ & -> & _ & Ht & _).
  eexists. split; [exact Hr|]. intros [r t] H. cbn [rd_root] in H. pose proof (Ht r t H). pose proof (Nr _ _ _ H). congruence.
Qed.
Print Assumptions C111_nested_refuted.
Example C111_nested_case : exists st,
  unpack_all [[0]; [0; 1]] (ustart [(0, (0, TRec [(1, (0, TRec [(2, (0, TBase))]))]))] [(0, [CComp 0 2; CComp 0 1])]) = Some st /\
  no_records st /\ u_vars st = [([0; 1; 2], (0, TBase))] /\ u_reads st = [mkRead [0; 1] [CComp 0 2] false] /\
  component_read [(0, (0, TRec [(1, (0, TRec [(2, (0, TBase))]))]))] (0, [CComp 0 2; CComp 0 1]) (TRec [(2, (0, TBase))]).
Proof.
  eexists. split; [reflexivity|]. split; [|split; [reflexivity|split; [reflexivity|]]].
  - intros p r t [H|[]]; injection H as <- <- <-; reflexivity.
  - exists 0, [(1, (0, TRec [(2, (0, TBase))]))], 1, 0, 0, [], [CComp 0 2].
    split; [left; reflexivity|]. split; [constructor; [intros []|constructor]|]. split; [reflexivity|].
    split; [intros c []|left; reflexivity].
Qed.
