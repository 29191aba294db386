(** Model of the unpacking of records in the arguments and the results of calls, and
    in the variables of the called function, in
    lib/Dialect/BaseModelica/Transforms/RecordInlining.cpp.

    Simplifications: of the sizes only the ranks are kept; a value is the argument of
    the call with one use for each position. *)
From Coq Require Import List Arith Bool Lia.
Import ListNotations.
From Verif Require Import RecordRefModel.

(** A variable of a function: the path that is its name, its rank, its element type. *)
Definition fvar : Type := list nat * (nat * rty).

(** VariableOpUnpackPattern, RecordInlining.cpp:418-503: the variables for the
    components are created where the record variable was. *)
Definition expand_var (p : list nat) (x : fvar) : list fvar :=
  if path_eqb (fst x) p then
    match snd (snd x) with
    | TRec fs => components (fst x) (fst (snd x)) fs
    | TBase => [x]
    end
  else [x].
(** The greedy driver: some order of the variables. *)
Fixpoint expand_vars (ps : list (list nat)) (xs : list fvar) : list fvar :=
  match ps with
  | [] => xs
  | p :: ps' => expand_vars ps' (flat_map (expand_var p) xs)
  end.

(** An argument: the name given in the call (empty if there is none), a component of
    some value, its rank and element type. *)
Record arg := mkArg { a_label : list nat; a_val : nat; a_comps : list nat; a_rank : nat; a_ty : rty }.
Definition same_value (a b : arg) : bool := (a_val a =? a_val b) && path_eqb (a_comps a) (a_comps b).

(** The arguments for the components of one, RecordInlining.cpp:136-171. *)
Definition comp_arg (a : arg) (c : nat * (nat * rty)) : arg :=
  mkArg (match a_label a with [] => [] | l => l ++ [fst c] end) (a_val a) (a_comps a ++ [fst c])
        (fst (snd c)) (snd (snd c)).

(** unpackCallArg, RecordInlining.cpp:126-183; [None] if the cast to RecordType fails. *)
Fixpoint unpack_arg (a : arg) (args : list arg) : option (list arg) :=
  match args with
  | [] => Some []
  | x :: args' =>
      match unpack_arg a args' with
      | None => None
      | Some rest =>
          if same_value x a then
            match a_rank x, a_ty x with
            | 0, TRec fs => Some (map (comp_arg x) fs ++ rest)
            | _, _ => None
            end
          else Some (x :: rest)
      end
  end.
Fixpoint unpack_args (order : list arg) (args : list arg) : option (list arg) :=
  match order with
  | [] => Some args
  | a :: order' => match unpack_arg a args with Some args' => unpack_args order' args' | None => None end
  end.

(** ** Results *)

(** unpackResultType, RecordInlining.cpp:908-956, for a result that is known by the
    output it comes from; [None] for a component that is an array, for which the type
    that is built is not valid. *)
Definition result_comps (x : fvar) : option (list fvar) :=
  match snd (snd x) with
  | TBase => Some [x]
  | TRec fs =>
      if forallb (fun c => fst (snd c) =? 0) fs then Some (components (fst x) (fst (snd x)) fs) else None
  end.
(** The new results, RecordInlining.cpp:852-868. *)
Fixpoint new_results (xs : list fvar) : option (list fvar) :=
  match xs with
  | [] => Some []
  | x :: xs' =>
      match result_comps x, new_results xs' with
      | Some l, Some l' => Some (l ++ l')
      | _, _ => None
      end
  end.

(** A use of a result: which one, and the components that are taken from it. *)
Definition use : Type := nat * list nat.

Definition is_record (x : fvar) : bool := match snd (snd x) with TRec _ => true | TBase => false end.
Fixpoint position (f : nat) (fs : list (nat * (nat * rty))) : option nat :=
  match fs with
  | [] => None
  | (g, _) :: fs' => if g =? f then Some 0 else option_map S (position f fs')
  end.
Definition width (x : fvar) : nat := match snd (snd x) with TRec fs => length fs | TBase => 1 end.

(** The replacement of the uses, RecordInlining.cpp:878-903. *)
Definition new_use (xs : list fvar) (u : use) : option use :=
  match nth_error xs (fst u) with
  | None => None
  | Some (_, (_, TRec fs)) =>
      match snd u with
      | [] => None
      | f :: path =>
          option_map (fun k => (list_sum (map width (firstn (fst u) xs)) + k, path)) (position f fs)
      end
  | Some (_, (_, TBase)) =>
      Some (length (filter (fun x => negb (is_record x)) (firstn (fst u) xs)), snd u)
  end.

(** The pattern applied [n] times: the results and a use. *)
Fixpoint unpack_results (n : nat) (xs : list fvar) (u : use) : option (list fvar * use) :=
  match n with
  | 0 => Some (xs, u)
  | S n' =>
      if existsb is_record xs then
        match new_results xs, new_use xs u with
        | Some xs', Some u' => unpack_results n' xs' u'
        | _, _ => None
        end
      else Some (xs, u)
  end.
