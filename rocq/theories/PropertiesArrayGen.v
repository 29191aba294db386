(** C117: array constructors, fill, size and ndims give the arrays they
    name. *)

From Coq Require Import List Arith ZArith Bool Lia.
Import ListNotations.
From Verif Require Import ArrayGenModel ArrayGenSpec ArrayGenProofs.

(** Constructors with consistent sizes, ranges 1:n, and expressions that are
    scalars and do not read the indices.  Missing: everything else, see the
    refutations below. *)
Theorem C117_constructor_partial :
  forall (K : Type) (inj : Z -> K) declared rho (a : aexp K) dims,
  (forall l, a <> Leaf l) -> shaped a dims -> counting a -> index_free a -> closed declared a ->
  (forall l, In l (leaves a) -> reads_only l) ->
  is_array inj rho a dims (lower_gen declared rho a).
Proof. intros. apply lower_ok; assumption. Qed.
Print Assumptions C117_constructor_partial.

(** [{{1, x}, {2 * x, 4} for i in 1:2}] with [x = 5] and [x] the variable 0. *)
Definition k (v : Z) : aexp Z := Leaf (mkLeaf [] 0 (fun _ => v)).
Definition x_times (c : Z) : aexp Z := Leaf (mkLeaf [0] 0 (fun r => (c * r 0%nat)%Z)).
Definition sample : aexp Z :=
  For [mkInd 1 1 1 2] (Cons [Cons [k 1; x_times 1]; Cons [x_times 2; k 4]]).
Definition only_x (v : nat) : bool := v =? 0.
Definition five (v : nat) : Z := if v =? 0 then 5%Z else 0%Z.
Definition shown (t : option (tensor Z)) (l : list (list nat)) : option (list nat * list (option Z)) :=
  option_map (fun t => (fst t, map (snd t) l)) t.

Example C117_constructor_case :
  (forall l, sample <> Leaf l) /\ shaped sample [2; 2; 2] /\ counting sample /\ index_free sample
  /\ closed only_x sample /\ (forall l, In l (leaves sample) -> reads_only l)
  /\ shown (lower_gen only_x five sample) [[0; 0; 1]; [1; 1; 0]; [1; 1; 1]]
     = Some ([2; 2; 2], [Some 5%Z; Some 10%Z; Some 4%Z]).
Proof.
  repeat split.
  - intros l; discriminate.
  - change [2; 2; 2] with (rev [2] ++ [2; 2]). apply sh_for.
    + constructor; [| constructor]. intros n. unfold in_range. cbn [i_step i_begin i_end]. lia.
    + unfold sample. apply (sh_cons (Cons [k 1; x_times 1]) [Cons [x_times 2; k 4]] [2]).
      intros x [<- | [<- | []]].
      * apply (sh_cons (k 1) [x_times 1] []). intros x [<- | [<- | []]]; constructor.
      * apply (sh_cons (x_times 2) [k 4] []). intros x [<- | [<- | []]]; constructor.
  - destruct H as [<- | []]; reflexivity.
  - destruct H as [<- | []]; reflexivity.
  - destruct H as [<- | []]; cbn; lia.
  - intros l i Hl [<- | []] Hx. cbn in Hl. destruct Hl as [<- | [<- | [<- | [<- | []]]]]; cbn in Hx; lia.
  - intros l v Hl Hx. cbn in Hl. destruct Hl as [<- | [<- | [<- | [<- | []]]]]; cbn in Hx;
      try contradiction; destruct Hx as [<- | []]; reflexivity.
  - intros l Hl r r' H. cbn in Hl. destruct Hl as [<- | [<- | [<- | [<- | []]]]]; cbn; try reflexivity;
      rewrite H by (left; reflexivity); reflexivity.
Qed.

(** Two indices: the last is the outermost. *)
Example C117_constructor_two :
  shown (lower_gen only_x five (For [mkInd 1 1 1 2; mkInd 2 1 1 3] (x_times 1))) [[2; 1]]
  = Some ([3; 2], [Some 5%Z]).
Proof. reflexivity. Qed.

(** The indices of a constructor are not declared when its expression is
    translated: an expression that reads the index is refused, or, if there is
    a variable of the same name outside, all elements have its value. *)
Theorem C117_index_refuted :
  forall (K : Type) declared rho x n (l : leaf K), (0 <= n)%Z -> l_rank l = 0 -> In x (l_vars l) ->
  (declared x = false -> lower_gen declared rho (For [mkInd x 1 1 n] (Leaf l)) = None)
  /\ ((forall y, In y (l_vars l) -> declared y = true) ->
      exists f, lower_gen declared rho (For [mkInd x 1 1 n] (Leaf l)) = Some ([Z.to_nat n], f)
        /\ forall idx, f idx = Some (l_val l rho)).
Proof. intros. apply index_outside; assumption. Qed.
Print Assumptions C117_index_refuted.

(** [{i for i in 1:3}] where a variable [i] with the value 5 exists: 5, 5, 5
    and not 1, 2, 3. *)
Example C117_index_case :
  shown (lower_gen only_x five (For [mkInd 0 1 1 3] (x_times 1))) [[0]; [1]; [2]]
    = Some ([3], [Some 5%Z; Some 5%Z; Some 5%Z])
  /\ map (elem (fun z => z) (For [mkInd 0 1 1 3] (x_times 1)) five) [[0]; [1]; [2]]
    = [Some 1%Z; Some 2%Z; Some 3%Z]
  /\ lower_gen (fun _ => false) five (For [mkInd 0 1 1 3] (x_times 1)) = None.
Proof. repeat split. Qed.

(** Ranges that do not begin with one, have another step or end before zero
    are refused. *)
Theorem C117_range_refuted :
  forall (K : Type) declared rho is_ (b : aexp K) i, In i is_ ->
  i_begin i <> 1%Z \/ i_step i <> 1%Z \/ (i_end i < 0)%Z ->
  lower_gen declared rho (For is_ b) = None.
Proof. intros. eapply range_refused; eassumption. Qed.
Print Assumptions C117_range_refuted.

Example C117_range_case :
  lower_gen only_x five (For [mkInd 1 2 1 3] (x_times 1)) = None
  /\ has_size (mkInd 1 2 1 3) 2.
Proof. split; [reflexivity |]. intros n. unfold in_range. cbn [i_step i_begin i_end]. lia. Qed.

(** Rows of different lengths are accepted if the number of values is right,
    and the values move to other rows. *)
Theorem C117_ragged_refuted :
  forall (K : Type) declared rho (r : list K) rs, r <> [] ->
  length (concat (r :: rs)) = S (length rs) * length r ->
  exists f, lower_gen declared rho (Cons (map row (r :: rs))) = Some ([S (length rs); length r], f)
    /\ forall i j, f [i; j] = nth_error (concat (r :: rs)) (i * length r + j).
Proof. intros. apply ragged; assumption. Qed.
Print Assumptions C117_ragged_refuted.

(** [{{1, 2}, {3, 4, 5}, {6}}]. *)
Example C117_ragged_case :
  shown (lower_gen only_x five (Cons (map row [[1%Z; 2%Z]; [3%Z; 4%Z; 5%Z]; [6%Z]]))) [[1; 0]; [2; 0]; [2; 1]]
  = Some ([3; 2], [Some 3%Z; Some 5%Z; Some 6%Z]).
Proof. reflexivity. Qed.

(** Elements that are arrays but not constructors (two vectors as the rows of
    a matrix) are refused. *)
Theorem C117_array_element_refuted :
  forall (K : Type) declared rho (c : leaf K) l, l_rank c <> 0 ->
  lower_gen declared rho (Cons (Leaf c :: l)) = None.
Proof. intros. apply array_leaf; assumption. Qed.
Print Assumptions C117_array_element_refuted.

Example C117_array_element_case :
  lower_gen only_x five (Cons [Leaf (mkLeaf [0] 1 (fun r => r 0)); Leaf (mkLeaf [0] 1 (fun r => r 0))]) = None.
Proof. reflexivity. Qed.

(** [fill] has the value everywhere. *)
Theorem C117_fill : forall (K : Type) (v : K) dims,
  exists f, lower_fill (0, v) (map Z.of_nat dims) = Some (dims, f) /\ forall idx, f idx = Some v.
Proof. intros. apply fill_ok. Qed.
Print Assumptions C117_fill.

Example C117_fill_case :
  shown (lower_fill (0, 7%Z) [2%Z; 3%Z]) [[1; 2]] = Some ([2; 3], [Some 7%Z]).
Proof. reflexivity. Qed.

(** [size] with a dimension counts dimensions from one. *)
Theorem C117_size_dimension : forall dims i, 1 <= i <= length dims ->
  size_dim dims (Z.of_nat i) = nth_error dims (i - 1) /\ size_dim dims (Z.of_nat i) <> None.
Proof. exact size_dim_ok. Qed.
Print Assumptions C117_size_dimension.

Example C117_size_dimension_case : size_dim [4; 5] 2 = Some 5.
Proof. reflexivity. Qed.

(** [ndims] is the last dimension that [size] has. *)
Theorem C117_ndims : forall dims i, size_dim dims i <> None <-> (1 <= i <= Z.of_nat (ndims dims))%Z.
Proof. exact ndims_dims. Qed.
Print Assumptions C117_ndims.

Example C117_ndims_case : ndims [4; 5] = 2 /\ size_dim [4; 5] 3 = None.
Proof. split; reflexivity. Qed.

(** [size] of a vector without a dimension is right, whatever the memory
    contains.  Missing: more dimensions, see [C117_size_refuted]. *)
Theorem C117_size_partial : forall junk d, size_array junk [d] = [d].
Proof. intros. apply size_array_is. Qed.
Print Assumptions C117_size_partial.

(** Of an array with more dimensions only the first size is put in the result;
    the others are what the memory contained. *)
Theorem C117_size_refuted : forall junk d dims,
  size_array junk (d :: dims) = d :: map junk (seq 1 (length dims)).
Proof. exact size_array_is. Qed.
Print Assumptions C117_size_refuted.

Example C117_size_case : size_array (fun _ => 99) [4; 5] = [4; 99].
Proof. reflexivity. Qed.
