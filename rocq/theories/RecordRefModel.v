(** Model of references to components of records and of the unpacking of the
    record variables they read:
    lib/Codegen/Lowering/ComponentReferenceLowerer.cpp and
    lib/Dialect/BaseModelica/Transforms/RecordInlining.cpp.

    Simplifications: of the sizes only the ranks are kept, subscripts are already
    shifted to start from zero (C109 has both), and a read has one user chain. *)
From Coq Require Import List Arith Bool ZArith Lia.
Import ListNotations.

(** The type of an element: a scalar, or a record with the name, the rank and the
    type of each component. The variables of a class are given as a record. *)
Inductive rty := TBase | TRec (fields : list (nat * (nat * rty))).

(** The component of a record with a name (resolveSymbolName<VariableOp>,
    ComponentReferenceLowerer.cpp:52-53). *)
Definition field (t : rty) (f : nat) : option (nat * rty) :=
  match t with
  | TBase => None
  | TRec fs => option_map snd (find (fun x => fst x =? f) fs)
  end.

(** A subscript: an index, or the range that begins at [b] with step [st]. *)
Inductive sub := At (i : Z) | Rng (b st : Z).
(** UnboundedRangeOp. *)
Definition colon : sub := Rng 0 1.

(** An entry of a component reference: its name and subscripts. *)
Definition entry : Type := nat * list sub.

(** The operations that lead from a VariableGetOp to the value, the outermost
    first: TensorViewOp, and ComponentGetOp on a value of rank [n]. *)
Inductive cop := CView (ss : list sub) | CComp (n f : nat).

(** The number of dimensions a view removes. *)
Definition nats (ss : list sub) : nat :=
  length (filter (fun s => match s with At _ => true | Rng _ _ => false end) ss).

(** lowerSubscripts, ComponentReferenceLowerer.cpp:97-150: with the rank of the
    value. A view with more subscripts than dimensions is not valid. *)
Definition lower_subs (ch : list cop) (rank : nat) (ss : list sub) (first last : bool)
  : option (list cop * nat) :=
  match ss with
  | [] => Some (ch, rank)
  | _ =>
      let pad := if xorb first last then repeat colon (rank - length ss) else [] in
      let full := if first then ss ++ pad else pad ++ ss in
      if length full <=? rank then Some (CView full :: ch, rank - nats full) else None
  end.

Definition is_nil {A} (l : list A) : bool := match l with [] => true | _ => false end.

(** The loop over the entries after the first, ComponentReferenceLowerer.cpp:35-92. *)
Fixpoint lower_path (ch : list cop) (rank : nat) (t : rty) (es : list entry)
  : option (list cop * nat * rty) :=
  match es with
  | [] => Some (ch, rank, t)
  | (f, ss) :: es' =>
      match t with
      | TBase =>
          match lower_subs ch rank ss false (is_nil es') with
          | Some (ch', rank') => lower_path ch' rank' t es'
          | None => None
          end
      | TRec _ =>
          match field t f with
          | None => None
          | Some (r, t') =>
              match lower_subs (CComp rank f :: ch) (rank + r) ss false (is_nil es') with
              | Some (ch', rank') => lower_path ch' rank' t' es'
              | None => None
              end
          end
      end
  end.

(** ComponentReferenceLowerer::lower: the variable, the operations, and the rank
    and element type of the result. *)
Definition lower (vars : rty) (ref : list entry) : option (nat * list cop * nat * rty) :=
  match ref with
  | [] => None
  | (v, ss) :: es =>
      match field vars v with
      | None => None
      | Some (r, t) =>
          match lower_subs [] r ss true (is_nil es) with
          | None => None
          | Some (ch, rank) =>
              match lower_path ch rank t es with
              | Some (ch', rank', t') => Some (v, ch', rank', t')
              | None => None
              end
          end
      end
  end.

(** The element that index [j] of the value of a chain of operations is: the path
    of a variable without records, and the indices in it. *)
Fixpoint view_index (ss : list sub) (j : list Z) : list Z :=
  match ss with
  | [] => j
  | At i :: ss' => i :: view_index ss' j
  | Rng b st :: ss' =>
      match j with
      | x :: j' => (b + x * st)%Z :: view_index ss' j'
      | [] => []
      end
  end.
Fixpoint elem (root : list nat) (ch : list cop) (j : list Z) : list nat * list Z :=
  match ch with
  | [] => (root, j)
  | CView ss :: ch' => elem root ch' (view_index ss j)
  | CComp n f :: ch' =>
      let pi := elem root ch' (firstn n j) in (fst pi ++ [f], snd pi ++ skipn n j)
  end.

(** ** Unpacking record variables *)

(** The variables with the names of their paths, their ranks and element types; and
    the reads, with the variable, the operations on it, and whether the read is
    in the table of the users (RecordInlining.cpp:1243-1276). *)
Record read := mkRead { rd_root : list nat; rd_chain : list cop; rd_known : bool }.
Record ustate := mkU { u_vars : list (list nat * (nat * rty)); u_reads : list read }.

Fixpoint path_eqb (p q : list nat) : bool :=
  match p, q with
  | [], [] => true
  | a :: p', b :: q' => (a =? b) && path_eqb p' q'
  | _, _ => false
  end.

(** replaceRecordGetters and applySubscriptions, RecordInlining.cpp:60-124, 186-212:
    the views below the innermost ComponentGetOp are applied to the component. *)
Fixpoint push (ch : list cop) : option (nat * list cop) :=
  match ch with
  | [] => None
  | c :: ch' =>
      match push ch' with
      | Some (f, ch'') => Some (f, c :: ch'')
      | None => match c with CComp _ f => Some (f, ch') | CView _ => None end
      end
  end.

(** replaceVariableGetOp, RecordInlining.cpp:664-696: the new VariableGetOp is not
    put in the table. A value that no ComponentGetOp uses is a failure. *)
Definition unpack_read (p : list nat) (rd : read) : option read :=
  if rd_known rd && path_eqb (rd_root rd) p then
    match push (rd_chain rd) with
    | Some (f, ch) => Some (mkRead (p ++ [f]) ch false)
    | None => None
    end
  else Some rd.
Fixpoint all_some {A B} (f : A -> option B) (l : list A) : option (list B) :=
  match l with
  | [] => Some []
  | a :: l' => match f a, all_some f l' with Some b, Some bs => Some (b :: bs) | _, _ => None end
  end.

(** VariableOpUnpackPattern, RecordInlining.cpp:418-503: the variable is replaced
    with one for each component, of the ranks together. *)
Definition components (p : list nat) (r : nat) (fs : list (nat * (nat * rty)))
  : list (list nat * (nat * rty)) :=
  map (fun x => (p ++ [fst x], (r + fst (snd x), snd (snd x)))) fs.
Definition unpack (p : list nat) (st : ustate) : option ustate :=
  match find (fun x => path_eqb (fst x) p) (u_vars st) with
  | Some (_, (r, TRec fs)) =>
      match all_some (unpack_read p) (u_reads st) with
      | Some rds =>
          Some (mkU (filter (fun x => negb (path_eqb (fst x) p)) (u_vars st) ++ components p r fs) rds)
      | None => None
      end
  | _ => None
  end.
(** The greedy driver: the pattern is applied to variables in some order. *)
Fixpoint unpack_all (ps : list (list nat)) (st : ustate) : option ustate :=
  match ps with
  | [] => Some st
  | p :: ps' => match unpack p st with Some st' => unpack_all ps' st' | None => None end
  end.
(** The start: the variables of the class, and its reads, all in the table. *)
Definition ustart (fields : list (nat * (nat * rty))) (reads : list (nat * list cop)) : ustate :=
  mkU (map (fun x => ([fst x], snd x)) fields)
    (map (fun x => mkRead [fst x] (snd x) true) reads).
