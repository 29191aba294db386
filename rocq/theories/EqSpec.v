(** What the passes on equations are meant to keep: scalar equations, their
    solutions and their matches. *)
From Coq Require Import ZArith List Bool Arith Permutation.
From Verif Require Import RangeModel MDRangeModel BoxSetModel Spec Result EqModel.
Import ListNotations.
Open Scope Z_scope.

(** ** Scalar equations *)

(** The iterations an instance stands for: one if it has no inductions. *)
Definition iterations (i : inst) : list point :=
  match t_rank (i_tmpl i) with O => [[]] | _ => bs_points (i_idx i) end.

(** An expression at one iteration: the elements it refers to are known. *)
Inductive gexp :=
| GElem (v : nat) (q : point)
| GNum (z : Z)
| GUn (o : nat) (a : gexp)
| GBin (o : nat) (a b : gexp).
Fixpoint ground (p : point) (e : exp) : gexp :=
  match e with
  | EAcc v f => GElem v (map (sub_at p) f)
  | EIdx s => GNum (sub_at p s)
  | ECst z => GNum z
  | EUn o a => GUn o (ground p a)
  | EBin o a b => GBin o (ground p a) (ground p b)
  end.

(** The scalar equations of an instance. *)
Definition scalars (i : inst) : list (gexp * gexp) :=
  map (fun p => (ground p (t_lhs (i_tmpl i)), ground p (t_rhs (i_tmpl i)))) (iterations i).

(** ** Solutions *)

(** A state gives a value to each element of each variable; the operators have
    any meaning. *)
Record meaning := mkMeaning { val : Type; num : Z -> val; un : nat -> val -> val;
                              bin : nat -> val -> val -> val }.
Fixpoint gval (M : meaning) (st : nat -> point -> val M) (g : gexp) : val M :=
  match g with
  | GElem v q => st v q
  | GNum z => num M z
  | GUn o a => un M o (gval M st a)
  | GBin o a b => bin M o (gval M st a) (gval M st b)
  end.
Definition holds_at (M : meaning) (st : nat -> point -> val M) (t : tmpl) (p : point) : Prop :=
  gval M st (ground p (t_lhs t)) = gval M st (ground p (t_rhs t)).
Definition holds (M : meaning) (st : nat -> point -> val M) (i : inst) : Prop :=
  forall p, In p (iterations i) -> holds_at M st (i_tmpl i) p.
Definition solution (M : meaning) (st : nat -> point -> val M) (l : list inst) : Prop :=
  Forall (holds M st) l.
Definition same_solutions (M : meaning) (a b : list inst) : Prop :=
  forall st, solution M st a <-> solution M st b.

(** ** Well-formed instances *)
Definition wf_inst (i : inst) : Prop :=
  match t_rank (i_tmpl i) with
  | O => i_idx i = []
  | rk => Forall (box_of rk) (i_idx i) /\ i_idx i <> []
  end.

(** ** Cuts of a set *)
Definition once (p : point) (l : list bset) : Prop :=
  exists l1 s l2, l = l1 ++ s :: l2 /\ in_boxes p s /\ forall t, In t (l1 ++ l2) -> ~ in_boxes p t.
Definition cuts (l : list bset) (s : bset) : Prop :=
  (forall p, in_boxes p s -> once p l) /\ (forall p t, In t l -> in_boxes p t -> in_boxes p s).

(** ** Matches *)
(** The elements an access reaches from the iterations of a set. *)
Definition reaches (f : af) (s : bset) (q : point) : Prop :=
  exists p, in_boxes p s /\ q = map (sub_at p) f.
(** The instance determines, by the access [f], the elements of its match. *)
Definition matched_by (f : af) (i : inst) (v : nat) (m : bset) : Prop :=
  i_match i = Some (v, m) /\ forall q, in_boxes q m <-> reaches f (i_idx i) q.

(** The accesses of an equation to [v], an array of [k] dimensions, have [k]
    subscripts. *)
Definition arity (t : tmpl) (v k : nat) : Prop :=
  (1 <= k)%nat /\ forall a, In a (t_accs t) -> a_var a = v -> length (a_fun a) = k.

(** The accesses to variable [v] that stay within the elements [m], and the
    elements that they do not tell apart. *)
Definition within (i : inst) (v : nat) (m : bset) (a : access) : Prop :=
  In a (t_accs (i_tmpl i)) /\ a_var a = v /\
  forall q, reaches (a_fun a) (i_idx i) q -> in_boxes q m.
Definition alike (i : inst) (v : nat) (m : bset) (q q' : point) : Prop :=
  forall c, within i v m c -> (reaches (a_fun c) (i_idx i) q <-> reaches (a_fun c) (i_idx i) q').
(** At each iteration, an access that reaches somewhere the element determined
    there reaches now an element not told apart from it. *)
Definition orderly (i : inst) (v : nat) (m : bset) (f : af) : Prop :=
  forall e b, in_boxes e (i_idx i) -> within i v m b ->
    reaches (a_fun b) (i_idx i) (map (sub_at e) f) ->
    alike i v m (map (sub_at e) (a_fun b)) (map (sub_at e) f).

(** ** Cycles *)
(** Making an equation explicit keeps its iterations, and its solutions satisfy
    the explicit form. *)
Definition explicit_ok (M : meaning) (explicit : inst -> option inst) : Prop :=
  forall i x, explicit i = Some x ->
    i_idx x = i_idx i /\ t_rank (i_tmpl x) = t_rank (i_tmpl i) /\
    forall st p, In p (iterations i) -> holds_at M st (i_tmpl i) p -> holds_at M st (i_tmpl x) p.

(** The subscripts refer to inductions of the equation. *)
Definition subscripts_below (n : nat) (f : af) : Prop :=
  Forall (fun s => match s with SDim k _ | SAff _ k _ => (k < n)%nat | SCst _ => True end) f.

(** The explicit equation [x] has on its left side the variable that [i] reads
    by the access [a]; if [i] has no inductions, the element it reads is the one
    of an iteration of [x]. *)
Definition writes_what_is_read (i : inst) (a : access) (x : inst) : Prop :=
  wf_inst x /\
  exists g, t_lhs (i_tmpl x) = EAcc (a_var a) g /\ length g = length (a_fun a) /\
    subscripts_below (t_rank (i_tmpl x)) g /\
    (t_rank (i_tmpl i) = O ->
     exists p, In p (iterations x) /\ map (sub_at p) g = map (sub_at []) (a_fun a)).

(** A cycle that can be solved: each equation reads what those that the next one
    becomes write, at iterations of its own. *)
Inductive reading_cycle (explicit : inst -> option inst) (l : ops) : list cyc -> Prop :=
| RC_last : forall c i, op_of l (c_op c) = Some i -> wf_inst i -> reading_cycle explicit l [c]
| RC_cons : forall c rest i, op_of l (c_op c) = Some i -> wf_inst i -> rest <> [] ->
    In (c_read c) (t_accs (i_tmpl i)) ->
    (t_rank (i_tmpl i) <> O -> Forall (box_of (t_rank (i_tmpl i))) (c_idx c) /\
       forall p, in_boxes p (c_idx c) -> in_boxes p (i_idx i)) ->
    (forall ws w x, solve explicit l rest = Ok (true, ws) -> In w ws -> explicit w = Some x ->
       writes_what_is_read i (c_read c) x) ->
    reading_cycle explicit l rest ->
    reading_cycle explicit l (c :: rest).

(** What the search of the cycles has to give: cycles of distinct equations
    among those it is given, that can be solved, and such that an equation
    without inductions is replaced by at least one. *)
Definition good_cycles (explicit : inst -> option inst) (cycles_of : ops -> list (list cyc)) : Prop :=
  forall l c, NoDup (map fst l) -> In c (cycles_of l) ->
    NoDup (map c_op c) /\ incl (map c_op c) (map fst l) /\ reading_cycle explicit l c /\
    (forall f i ns, hd_error c = Some f -> op_of l (c_op f) = Some i -> t_rank (i_tmpl i) = O ->
       solve explicit l c = Ok (true, ns) -> ns <> []).
