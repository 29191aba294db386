(** Which element a reference to a component of a record names. *)
From Coq Require Import List Arith Bool ZArith Lia.
Import ListNotations.
From Verif Require Import RecordRefModel.

(** The subscripts of a name of rank [r] give, for the indices [j] of the
    dimensions they keep, the indices [i] of the element; left-out subscripts at the
    end are colons. *)
Inductive picked : list sub -> nat -> list Z -> list Z -> Prop :=
| picked_rest : forall r j, length j = r -> picked [] r j j
| picked_at : forall i ss r j k, picked ss r j k -> picked (At i :: ss) (S r) j (i :: k)
| picked_rng : forall b st x ss r j k, picked ss r j k ->
    picked (Rng b st :: ss) (S r) (x :: j) ((b + x * st)%Z :: k).

(** The subscripts of each entry belong to the dimensions of that entry. The
    dimensions that are kept come in the order of the entries. *)
Inductive names : rty -> list entry -> list Z -> list nat -> list Z -> rty -> Prop :=
| names_nil : forall t, names t [] [] [] [] t
| names_cons : forall t f ss es r t' t'' j i j' p i',
    field t f = Some (r, t') -> picked ss r j i -> names t' es j' p i' t'' ->
    names t ((f, ss) :: es) (j ++ j') (f :: p) (i ++ i') t''.

(** References the lowering is right for: subscripts in the middle only if nothing
    before keeps a dimension, and all or none at the end. *)
Fixpoint regular_path (t : rty) (kept : nat) (es : list entry) : Prop :=
  match es with
  | [] => True
  | (f, ss) :: es' =>
      match field t f with
      | None => False
      | Some (r, t') =>
          match es' with
          | [] => ss = [] \/ length ss = r
          | _ => (ss = [] \/ kept = 0) /\ regular_path t' (kept + (r - nats ss)) es'
          end
      end
  end.
Definition regular (vars : rty) (ref : list entry) : Prop :=
  match ref with
  | [] => True
  | (v, ss) :: es =>
      match field vars v with
      | None => False
      | Some (r, t) => regular_path t (r - nats ss) es
      end
  end.

(** ** Reads *)

(** A chain of operations on a value of rank [r0] that gives one of rank [out]. *)
Fixpoint ranked (r0 : nat) (ch : list cop) (out : nat) : Prop :=
  match ch with
  | [] => out = r0
  | CView ss :: ch' => exists m, ranked r0 ch' m /\ length ss <= m /\ out = m - nats ss
  | CComp n f :: ch' => ranked r0 ch' n /\ exists k, out = n + k
  end.

(** A read of a component of type [t] of a record variable, possibly through views,
    with any operations on the component. *)
Definition component_read (fields : list (nat * (nat * rty))) (rd : nat * list cop) (t : rty) : Prop :=
  exists r fs f rf k views outer,
    In (fst rd, (r, TRec fs)) fields /\ NoDup (map fst fs) /\
    snd rd = outer ++ CComp k f :: views /\
    (forall c, In c views -> exists ss, c = CView ss) /\
    In (f, (rf, t)) fs.
(** A read of a variable that is not a record. *)
Definition plain_read (fields : list (nat * (nat * rty))) (rd : nat * list cop) : Prop :=
  exists r, In (fst rd, (r, TBase)) fields.

Definition no_records (st : ustate) : Prop :=
  forall p r t, In (p, (r, t)) (u_vars st) -> t = TBase.
