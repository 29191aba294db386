(** Specification of the variable filter: the rules of a filter, how they are
    written on the command line, and what they select. *)
From Coq Require Import ZArith List String.
From Verif Require Import RangeModel MDRangeModel LexerModel LexerSpec VFModel.
Import ListNotations.
Local Open Scope string_scope.
Local Open Scope list_scope.
Local Open Scope Z_scope.

(** ** Writing *)

(** The tokens. *)
Inductive wtok := WInt (ds : list Z) | WIdent (s : text) | WDer | WRegex (s : text) | WSym (c : Z).
Definition filter_name (s : text) : Prop :=
  s <> codes "der"
  /\ exists c s', s = c :: s' /\ letter c /\ Forall (fun x => letter x \/ digit x \/ x = 46) s'.
Definition wtok_ok (t : wtok) : Prop :=
  match t with
  | WInt ds => ds <> [] /\ digits_ok ds /\ decimal ds < 2 ^ 63
  | WIdent s => filter_name s
  | WDer => True
  | WRegex s => Forall (fun c => c <> 0 /\ c <> 47) s
  | WSym c => In c (codes "()[],;:$")
  end.
Definition wtok_text (t : wtok) : text :=
  match t with
  | WInt ds => digits_text ds
  | WIdent s => s
  | WDer => codes "der"
  | WRegex s => 47 :: s ++ [47]
  | WSym c => [c]
  end.
Definition wtok_token (t : wtok) : vtoken :=
  match t with
  | WInt ds => VInt (decimal ds)
  | WIdent s => VIdent s
  | WDer => VDer
  | WRegex s => VRegex s
  | WSym c => VSym c
  end.
(** The characters that may follow a token. *)
Definition wfollows (t : wtok) (c : Z) : Prop :=
  match t with
  | WInt _ => ~ digit c
  | WIdent _ | WDer => ~ letter c /\ ~ digit c /\ c <> 46
  | WRegex _ | WSym _ => True
  end.
(** A text: tokens, each with the spaces that follow it. *)
Definition wtext (l : list (wtok * text)) : text := flat_map (fun x => wtok_text (fst x) ++ snd x) l.
Fixpoint wtext_ok (l : list (wtok * text)) : Prop :=
  match l with
  | [] => True
  | (t, sp) :: l' => wtok_ok t /\ Forall space sp /\ wfollows t (hd 0 (sp ++ wtext l')) /\ wtext_ok l'
  end.

(** The rules: a variable (with slices: bounds written in decimal, None is $),
    a derivative, a regular expression. *)
Inductive rule :=
| RVar (name : text) (slices : list (option (list Z) * option (list Z)))
| RDer (name : text)
| RRegex (r : text).
Definition bound_ok (b : option (list Z)) : Prop :=
  match b with None => True | Some ds => ds <> [] /\ digits_ok ds /\ decimal ds < 2 ^ 31 end.
Definition rule_ok (rvalid : text -> bool) (r : rule) : Prop :=
  match r with
  | RVar name l => filter_name name /\ Forall (fun b => bound_ok (fst b) /\ bound_ok (snd b)) l
  | RDer name => filter_name name
  | RRegex r => r <> [] /\ Forall (fun c => c <> 0 /\ c <> 47) r /\ rvalid r = true
  end.

(** The tokens of a rule, as documented: name, name[l:u,...], der(name), /r/. *)
Definition bound_token (b : option (list Z)) : wtok := match b with None => WSym 36 | Some ds => WInt ds end.
Definition slice_tokens (b : option (list Z) * option (list Z)) : list wtok :=
  [bound_token (fst b); WSym 58; bound_token (snd b)].
Fixpoint slices_tokens (l : list (option (list Z) * option (list Z))) : list wtok :=
  match l with
  | [] => []
  | [b] => slice_tokens b
  | b :: l' => slice_tokens b ++ WSym 44 :: slices_tokens l'
  end.
Definition rule_tokens (r : rule) : list wtok :=
  match r with
  | RVar name [] => [WIdent name]
  | RVar name l => WIdent name :: WSym 91 :: slices_tokens l ++ [WSym 93]
  | RDer name => [WDer; WSym 40; WIdent name; WSym 41]
  | RRegex r => [WRegex r]
  end.
(** A filter: rules separated by semicolons. *)
Fixpoint filter_tokens (l : list rule) : list wtok :=
  match l with
  | [] => []
  | [r] => rule_tokens r
  | r :: l' => rule_tokens r ++ WSym 59 :: filter_tokens l'
  end.
Definition filter_text (l : list rule) : text := flat_map wtok_text (filter_tokens l).

(** ** Meaning *)
Definition bound_value (b : option (list Z)) : Z := match b with None => -1 | Some ds => decimal ds end.
Definition slices_of (l : list (option (list Z) * option (list Z))) : list vrange :=
  map (fun b => (bound_value (fst b), bound_value (snd b))) l.
(** The slices of the rules that name a variable. *)
Definition rules_of (l : list rule) (name : text) : list (list vrange) :=
  flat_map (fun r => match r with RVar n s => if text_eqb name n then [slices_of s] else [] | _ => [] end) l.
Definition regexes_of (l : list rule) : list text :=
  flat_map (fun r => match r with RRegex s => [s] | _ => [] end) l.

(** The calls that record the rules. *)
Definition record_rule (f : vfilter) (r : rule) : vfilter :=
  match r with
  | RVar n s => addVariable f n (slices_of s)
  | RDer n => addDerivative f n
  | RRegex s => addRegexString f s
  end.
Definition filter_of (l : list rule) : vfilter := fold_left record_rule l vf_new.

(** An element (0-based) of an array of the given shape; a slice of an array
    (1-based bounds, -1 for none; the dimensions that are not mentioned are
    not limited); slices that lie within the shape. *)
Definition in_shape (p : point) (shape : list Z) : Prop := Forall2 (fun i d => 0 <= i < d) p shape.
Fixpoint in_slice (p : point) (rs : list vrange) : Prop :=
  match p, rs with
  | i :: p', (l, u) :: rs' => (l = -1 \/ l <= i + 1) /\ (u = -1 \/ i + 1 <= u) /\ in_slice p' rs'
  | _, _ => True
  end.
Fixpoint slice_within (rs : list vrange) (shape : list Z) : Prop :=
  match rs, shape with
  | (l, u) :: rs', d :: shape' =>
      (l = -1 \/ 1 <= l <= d) /\ (u = -1 \/ 1 <= u <= d) /\ (l = -1 \/ u = -1 \/ l <= u) /\ slice_within rs' shape'
  | _, _ => True
  end.
