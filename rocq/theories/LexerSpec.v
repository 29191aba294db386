(** Specification of the lexer: the tokens of Modelica, how they are written and
    what they denote. *)
From Coq Require Import ZArith QArith Qabs List String SpecFloat.
From Verif Require Import LexerModel.
Import ListNotations.
Local Open Scope string_scope.
Local Open Scope list_scope.
Local Open Scope Z_scope.

(** The number written with decimal digits. *)
Definition decimal (ds : list Z) : Z := fold_left (fun a d => a * 10 + d) ds 0.
Definition digits_ok (ds : list Z) : Prop := Forall (fun d => 0 <= d <= 9) ds.
Definition digits_text (ds : list Z) : text := map (fun d => d + 48) ds.

(** Exponents: the letter, the sign if written (true: +), the digits. *)
Definition exponent : Type := Z * option bool * list Z.
Definition exponent_value (e : exponent) : Z :=
  match e with (_, Some false, ds) => - decimal ds | (_, _, ds) => decimal ds end.
Definition sign_text (s : option bool) : text :=
  match s with None => [] | Some true => codes "+" | Some false => codes "-" end.
Definition exponent_text (e : exponent) : text :=
  match e with (c, s, ds) => c :: sign_text s ++ digits_text ds end.

(** The number written  us.fs  e  xs. *)
Definition real_value (us fs : list Z) (e : Z) : Q :=
  (inject_Z (decimal (us ++ fs)) * 10 ^ (e - Z.of_nat (List.length fs)))%Q.

(** The rational number a finite double stands for, and valid doubles. *)
Definition double_value (d : spec_float) : option Q :=
  match d with
  | S754_finite s m e => Some (inject_Z (cond_Zopp s (Z.pos m)) * 2 ^ e)%Q
  | S754_zero _ => Some 0%Q
  | _ => None
  end.
Definition is_double (d : spec_float) : Prop := valid_binary 53 1024 d = true.
(** [d] is a double nearest to [q]. *)
Definition nearest_double (d : spec_float) (q : Q) : Prop :=
  is_double d /\ exists v, double_value d = Some v
    /\ forall d' v', is_double d' -> double_value d' = Some v' -> (Qabs (v - q) <= Qabs (v' - q))%Q.

Inductive ltok :=
| LtIdent (s : text)
| LtQuoted (s : text)
| LtKey (s : text)
| LtInt (ds : list Z)
| LtReal (us : list Z) (fs : option (list Z)) (e : option exponent)
| LtString (s : text)
| LtSym (s : text).

Definition letter (c : Z) : Prop := 97 <= c <= 122 \/ 65 <= c <= 90 \/ c = 95.
Definition digit (c : Z) : Prop := 48 <= c <= 57.
Definition space (c : Z) : Prop := c = 32 \/ 9 <= c <= 13.
Definition identifier (s : text) : Prop :=
  exists c s', (s = c :: s' \/ s = 36 :: c :: s') /\ letter c /\ Forall (fun x => letter x \/ digit x) s'.
Definition symbols : list text :=
  map codes ["+"; "-"; "*"; "/"; "^"; "."; "<"; ">"; ","; ";"; ":"; "("; ")"; "["; "]"; "{"; "}"; "=";
    ".+"; ".-"; ".*"; "./"; ".^"; "=="; "<>"; "<="; ">="; ":="]%string.

Definition exponent_ok (e : exponent) : Prop :=
  match e with (c, s, ds) => (c = 69 \/ c = 101) /\ ds <> [] /\ digits_ok ds /\ decimal ds < 2 ^ 63 end.

(** The keywords of the Modelica language specification, section 2.3.3. *)
Definition modelica_keywords : list text :=
  map codes ["algorithm"; "and"; "annotation"; "block"; "break"; "class"; "connect"; "connector";
    "constant"; "constrainedby"; "der"; "discrete"; "each"; "else"; "elseif"; "elsewhen";
    "encapsulated"; "end"; "enumeration"; "equation"; "expandable"; "extends"; "external"; "false";
    "final"; "flow"; "for"; "function"; "if"; "import"; "impure"; "in"; "initial"; "inner"; "input";
    "loop"; "model"; "not"; "operator"; "or"; "outer"; "output"; "package"; "parameter"; "partial";
    "protected"; "public"; "pure"; "record"; "redeclare"; "replaceable"; "return"; "stream"; "then";
    "true"; "type"; "when"; "while"; "within"]%string.

(** The tokens considered. Numbers fit an int64_t; the digits of a fraction are
    below 10 ^ 18, the largest power of ten of an int64_t. *)
Definition ltok_ok (t : ltok) : Prop :=
  match t with
  | LtIdent s => identifier s /\ ~ In s modelica_keywords
  | LtQuoted s => Forall (fun c => c <> 0) s
  | LtKey s => In s modelica_keywords
  | LtInt ds => ds <> [] /\ digits_ok ds /\ decimal ds < 2 ^ 63
  | LtReal us fs e =>
      us <> [] /\ digits_ok us /\ decimal us < 2 ^ 63
      /\ match fs with
         | None => e <> None
         | Some fs => digits_ok fs /\ decimal fs < 10 ^ 18 /\ Z.of_nat (List.length fs) < 2 ^ 31
         end
      /\ match e with None => True | Some e => exponent_ok e end
  | LtString s => Forall (fun c => c <> 0) s
  | LtSym s => In s symbols
  end.

(** A character inside quotes [q]. *)
Definition quoted_char (q c : Z) : text := if orb (c =? q) (c =? 92) then [92; c] else [c].

Definition ltok_text (t : ltok) : text :=
  match t with
  | LtIdent s | LtKey s | LtSym s => s
  | LtQuoted s => 39 :: flat_map (quoted_char 39) s ++ [39]
  | LtInt ds => digits_text ds
  | LtReal us fs e =>
      digits_text us ++ match fs with None => [] | Some fs => 46 :: digits_text fs end
      ++ match e with None => [] | Some e => exponent_text e end
  | LtString s => 34 :: flat_map (quoted_char 34) s ++ [34]
  end.

(** What is read back. *)
Definition ltok_denotes (t : ltok) (k : token) : Prop :=
  match t with
  | LtIdent s | LtQuoted s => k = TokIdent s
  | LtKey s => k = TokKey s
  | LtInt ds => k = TokInt (decimal ds)
  | LtReal us fs e => exists q, k = TokFloat q
      /\ Qeq q (real_value us (match fs with None => [] | Some fs => fs end)
                (match e with None => 0 | Some e => exponent_value e end))
  | LtString s => k = TokString s
  | LtSym s => k = TokSym s
  end.

(** White space and comments. *)
Inductive sepitem := SepSpace (c : Z) | SepLine (t : text) | SepBlock (t : text).
Definition sepitem_ok (i : sepitem) : Prop :=
  match i with
  | SepSpace c => space c
  | SepLine t => Forall (fun c => c <> 0 /\ c <> 10) t
  | SepBlock t => Forall (fun c => c <> 0) t
      /\ (forall a b, t <> a ++ codes "*/" ++ b) /\ hd 0 t <> 47
  end.
Definition sepitem_text (i : sepitem) : text :=
  match i with
  | SepSpace c => [c]
  | SepLine t => codes "//" ++ t ++ [10]
  | SepBlock t => codes "/*" ++ t ++ codes "*/"
  end.
Definition sep_text (l : list sepitem) : text := flat_map sepitem_text l.

(** The characters that may follow a token without being read as part of it:
    a letter would continue an identifier, = would make := of :, and so on. For
    a number that ends with its decimal point only white space is accepted. *)
Definition follows (t : ltok) (c : Z) : Prop :=
  match t with
  | LtIdent _ | LtKey _ => ~ letter c /\ ~ digit c
  | LtQuoted _ | LtString _ => True
  | LtInt _ => ~ digit c /\ c <> 46 /\ c <> 69 /\ c <> 101
  | LtReal _ (Some []) None => space c
  | LtReal _ _ None => ~ digit c /\ c <> 69 /\ c <> 101
  | LtReal _ _ (Some _) => ~ digit c
  | LtSym s => ~ In (s ++ [c]) symbols /\ ~ In (s ++ [c]) [codes "//"; codes "/*"]
  end.

(** A program text: tokens, each followed by any number of spaces and comments,
    none where the next character permits. *)
Definition program : Type := list (ltok * list sepitem).
Definition program_text (p : program) : text :=
  flat_map (fun x => ltok_text (fst x) ++ sep_text (snd x)) p.
Fixpoint program_ok (p : program) : Prop :=
  match p with
  | [] => True
  | (t, l) :: p' => ltok_ok t /\ Forall sepitem_ok l
      /\ follows t (hd 0 (sep_text l ++ program_text p')) /\ program_ok p'
  end.
Definition program_tokens (p : program) : list ltok := map fst p.
