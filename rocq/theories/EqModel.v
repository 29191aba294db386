(** Equation instances and the passes that cut them, restrict them and
    substitute one into another (lib/Dialect/BaseModelica).

    Simplifications, for the whole file: a template is a pair of expression
    trees, so a value used twice is two equal subtrees; every access has affine
    subscripts [a * i + c] of one induction each and yields a scalar; there are
    no inductions inside reductions. Access functions are the exact image and
    preimage, with the special rules of constant functions; the defects of the
    other access functions are the subject of [AccessModel.v] (C20-C24). *)
From Coq Require Import ZArith List Bool Arith.
From Verif Require Import RangeModel MDRangeModel BoxSetModel Result AccessModel.
Import ListNotations.
Open Scope Z_scope.

(** * Access functions and templates *)

(** A subscript: [i_k + c], [a * i_k + c] or [c] (include/marco/Modeling/
    DimensionAccess*.h). *)
Inductive sub := SDim (k : nat) (c : Z) | SAff (a : Z) (k : nat) (c : Z) | SCst (c : Z).
Definition sub_at (p : point) (s : sub) : Z :=
  match s with
  | SDim k c => nth k p 0 + c
  | SAff a k c => a * nth k p 0 + c
  | SCst c => c
  end.
Definition is_cst (s : sub) : bool := match s with SCst _ => true | _ => false end.
Definition is_dim (s : sub) : bool := match s with SDim _ _ => true | _ => false end.

(** The results of an access function, and the element of one iteration. *)
Definition af := list sub.
Definition af_at (f : af) (p : point) : point := map (sub_at p) f.
Definition af_const (f : af) : bool := forallb is_cst f.

(** map(IndexSet): AccessFunctionAffineConstant.cpp:71-81 when all the results
    are constant ([rk] is the number of dimensions), otherwise the image
    (RotoTranslation.cpp:185-194, Generic.cpp:269-277), point by point. *)
Definition af_map (rk : nat) (f : af) (s : bset) : bset :=
  if af_const f then
    if bs_empty s && negb (Nat.eqb rk 0) then []
    else match f with [] => [] | _ => [mdrange_of_point (af_at f [])] end
  else bs_of_points (map (af_at f) (bs_points s)).

(** inverseMap: AccessFunctionAffineConstant.cpp:83-97 when all the results are
    constant, otherwise the preimage (AccessFunction.cpp:204-215). *)
Definition af_preimage (rk : nat) (f : af) (accessed parent : bset) : bset :=
  if af_const f then
    let expected := af_map rk f parent in
    if bs_empty accessed && negb (bs_empty expected) then []
    else if bs_contains expected accessed then parent else []
  else bs_of_points (filter (fun p => bs_mem accessed (af_at f p)) (bs_points parent)).

(** A side of an equation: an access to variable [v], an induction, a constant,
    an operation on one or two operands. *)
Inductive exp :=
| EAcc (v : nat) (f : af)
| EIdx (s : sub)
| ECst (z : Z)
| EUn (o : nat) (a : exp)
| EBin (o : nat) (a b : exp).

(** EquationTemplateOp: number of inductions and sides. *)
Record tmpl := mkTmpl { t_rank : nat; t_lhs : exp; t_rhs : exp }.

(** EquationInstanceOp and its properties: template, indices, matched variable
    with the matched elements. *)
Record inst := mkInst { i_tmpl : tmpl; i_idx : bset; i_match : option (nat * bset) }.

(** VariableAccess: side ([true] for the left one) and operands from the top
    of the side, variable, access function. *)
Record access := mkAcc { a_left : bool; a_path : list nat; a_var : nat; a_fun : af }.

(** Ops.cpp:8165-8194, getAccesses, and searchAccesses: each access of the left
    side, then those of the right side. *)
Fixpoint exp_accs (l : bool) (path : list nat) (e : exp) : list access :=
  match e with
  | EAcc v f => [mkAcc l path v f]
  | EIdx _ | ECst _ => []
  | EUn _ a => exp_accs l (path ++ [0%nat]) a
  | EBin _ a b => exp_accs l (path ++ [0%nat]) a ++ exp_accs l (path ++ [1%nat]) b
  end.
Definition t_accs (t : tmpl) : list access := exp_accs true [] (t_lhs t) ++ exp_accs false [] (t_rhs t).

(** Ops.cpp:8196-8217, getWriteAccesses. *)
Definition writes_to (rk : nat) (idx : bset) (v : nat) (m : bset) (a : access) : bool :=
  Nat.eqb (a_var a) v &&
  (let img := af_map rk (a_fun a) idx in (bs_empty m && bs_empty img) || bs_contains m img).
Definition write_accesses (i : inst) : list access :=
  match i_match i with
  | None => []
  | Some (v, m) => filter (writes_to (t_rank (i_tmpl i)) (i_idx i) v m) (t_accs (i_tmpl i))
  end.

(** Ops.cpp:10015-10053, setIndices. *)
Definition set_indices (i : inst) (idx : bset) (given : list access) : res inst :=
  if bs_eq idx (i_idx i) then Ok i
  else
    match i_match i with
    | None => Ok (mkInst (i_tmpl i) idx None)
    | Some (v, _) =>
        let ws := match given with [] => write_accesses i | _ => given end in
        _ <- assert_ok (negb (match ws with [] => true | _ => false end)) ;;
        let m := fold_left (fun s w => bs_union s (af_map (t_rank (i_tmpl i)) (a_fun w) idx)) ws [] in
        Ok (mkInst (i_tmpl i) idx (Some (v, m)))
    end.

(** * EquationAccessSplit.cpp *)

(** Lines 75-79. *)
Record part := mkPart { p_eq : bset; p_var : bset; p_accs : list access }.

(** Lines 118-140: an element set is cut by the elements of one access. *)
Definition cut_var (img : bset) (a : access) (p : part) : list part :=
  let x := bs_intersect img (p_var p) in
  if bs_empty x then [p]
  else
    let d := bs_diff (p_var p) x in
    mkPart (p_eq p) x (p_accs p ++ [a]) ::
    (if bs_empty d then [] else [mkPart (p_eq p) d (p_accs p)]).

(** Lines 100-143: the accesses to the matched variable that stay within the
    matched elements, and the element sets cut by each of them. *)
Definition match_accesses (i : inst) (v : nat) (m : bset) : list access :=
  filter (fun a => Nat.eqb (a_var a) v &&
                   bs_contains m (af_map (t_rank (i_tmpl i)) (a_fun a) (i_idx i)))
    (t_accs (i_tmpl i)).
Definition var_parts (i : inst) (m : bset) (accs : list access) : list part :=
  fold_left (fun ps a =>
      flat_map (cut_var (af_map (t_rank (i_tmpl i)) (a_fun a) (i_idx i)) a) ps)
    accs [mkPart [] m []].

(** Lines 155-162: the iterations whose accesses all fall in an element set. *)
Definition joint_preimage (rk : nat) (idx : bset) (vp : part) : bset :=
  fold_left (fun s a => bs_intersect s (af_preimage rk (a_fun a) (p_var vp) idx)) (p_accs vp) idx.
(** Lines 178-182 and 192-195. *)
Definition joint_image (rk : nat) (accs : list access) (idx : bset) : bset :=
  fold_left (fun s a => bs_union s (af_map rk (a_fun a) idx)) accs [].

(** Lines 164-198: an iteration set is cut by the iterations found. *)
Definition cut_eq (rk : nat) (inv : bset) (accs : list access) (p : part) : list part :=
  let x := bs_intersect inv (p_eq p) in
  if bs_empty x then [p]
  else
    let d := bs_diff (p_eq p) x in
    mkPart x (joint_image rk (p_accs p ++ accs) x) (p_accs p ++ accs) ::
    (if bs_empty d then [] else [mkPart d (joint_image rk (p_accs p) d) (p_accs p)]).

(** Lines 149-201. *)
Definition eq_parts (i : inst) (vps : list part) : list part :=
  let rk := t_rank (i_tmpl i) in
  fold_left (fun ps vp => flat_map (cut_eq rk (joint_preimage rk (i_idx i) vp) (p_accs vp)) ps)
    vps [mkPart (i_idx i) [] []].

(** Lines 203-231, the four assertions. *)
Definition counted (get : part -> bset) (ps : list part) (p : point) : bool :=
  Nat.eqb (length (filter (fun q => bs_mem (get q) p) ps)) 1.
Definition split_checks (i : inst) (m : bset) (ps : list part) : bool :=
  bs_eq (flat_map p_eq ps) (i_idx i) &&
  bs_eq (flat_map p_var ps) m &&
  forallb (counted p_eq ps) (bs_points (i_idx i)) &&
  forallb (counted p_var ps) (bs_points m).

(** Lines 81-254, splitEquationIndices; [checks] tells whether the assertions
    are compiled in. An instance without match has the default Variable, whose
    name no access has. *)
Definition access_split (checks : bool) (i : inst) : res (list inst) :=
  if bs_empty (i_idx i) then Ok [i]
  else
    match i_match i with
    | None => Ok [i]
    | Some (v, m) =>
        let accs := match_accesses i v m in
        if (length accs <=? 1)%nat then Ok [i]
        else
          let ps := eq_parts i (var_parts i m accs) in
          _ <- assert_ok (negb checks || split_checks i m ps) ;;
          match ps with
          | [_] => Ok [i]
          | _ =>
              _ <- assert_ok (negb checks || forallb (fun p => negb (bs_empty (p_eq p)) &&
                     negb (bs_empty (p_var p)) &&
                     negb (match p_accs p with [] => true | _ => false end)) ps) ;;
              Ok (map (fun p => mkInst (i_tmpl i) (p_eq p) (Some (v, p_var p))) ps)
          end
    end.

(** * ScalarRangesEquationSplit.cpp *)

(** Lines 27-83, splitEquation: the clones, then the equation itself if some
    ranges are left. *)
Definition is_single (b : mdrange) : bool := mdrange_size b =? 1.
Definition scalar_split (i : inst) : res (list inst) :=
  if bs_empty (i_idx i) then Ok [i]
  else
    let singles := filter is_single (i_idx i) in
    let rest := filter (fun b => negb (is_single b)) (i_idx i) in
    match singles with
    | [] => Ok [i]
    | _ =>
        let ws := write_accesses i in
        cs <- map_res (fun b => set_indices i [b] ws) singles ;;
        match rest with
        | [] => Ok cs
        | _ => r <- set_indices i rest ws ;; Ok (cs ++ [r])
        end
    end.

(** * SingleValuedInductionElimination.cpp *)

(** Replacement of the inductions by the subscripts [T]: an operation of a
    template cloned with mapped inductions. *)
Definition sub_subst (T : list sub) (s : sub) : sub :=
  match s with
  | SCst c => SCst c
  | SDim k c =>
      match nth k T (SCst 0) with
      | SDim j d => SDim j (d + c)
      | SAff a j d => SAff a j (d + c)
      | SCst d => SCst (d + c)
      end
  | SAff a k c =>
      match nth k T (SCst 0) with
      | SDim j d => SAff a j (a * d + c)
      | SAff b j d => SAff (a * b) j (a * d + c)
      | SCst d => SCst (a * d + c)
      end
  end.
Fixpoint exp_subst (T : list sub) (e : exp) : exp :=
  match e with
  | EAcc v f => EAcc v (map (sub_subst T) f)
  | EIdx s => EIdx (sub_subst T s)
  | ECst z => ECst z
  | EUn o a => EUn o (exp_subst T a)
  | EBin o a b => EBin o (exp_subst T a) (exp_subst T b)
  end.

(** Lines 181-203, createReducedTemplate: the value of each induction. [pos] is
    the number of inductions kept so far. *)
Definition single_dim (r : range) : bool := range_size r =? 1.
Fixpoint reduction (b : mdrange) (pos : nat) : list sub :=
  match b with
  | [] => []
  | r :: b' => if single_dim r then SCst (rbegin r) :: reduction b' pos
               else SDim pos 0 :: reduction b' (S pos)
  end.
Definition kept_dims (b : mdrange) : mdrange := filter (fun r => negb (single_dim r)) b.
Definition reduce_tmpl (t : tmpl) (b : mdrange) : tmpl :=
  let T := reduction b 0 in
  mkTmpl (length (kept_dims b)) (exp_subst T (t_lhs t)) (exp_subst T (t_rhs t)).

(** Lines 97-153, one range: the new instance takes over the properties of the
    old one, indices included, and setIndices is called on it. *)
Definition svie_range (i : inst) (b : mdrange) : res inst :=
  let n := mkInst (reduce_tmpl (i_tmpl i) b) (i_idx i) (i_match i) in
  set_indices n (match kept_dims b with [] => [] | ks => [ks] end) [].

(** Lines 84-167, processEquation. *)
Definition svie (i : inst) : res (list inst) :=
  if bs_empty (i_idx i) then Ok [i]
  else
    let cut := filter (existsb single_dim) (i_idx i) in
    ns <- map_res (svie_range i) cut ;;
    let remaining := fold_left bs_remove cut (i_idx i) in
    if bs_empty remaining then Ok ns
    else r <- set_indices i remaining [] ;; Ok (ns ++ [r]).

(** * Replacement of an access (Ops.cpp) *)

(** AccessFunctionRotoTranslation.cpp:91-153 and AccessFunctionEmpty.cpp:54-58,
    inverse of a function of [n] dimensions: every result is [i_k + c], and
    every dimension is the one of some result. *)
Fixpoint dim_position (d : nat) (g : af) (pos : nat) : option sub :=
  match g with
  | SDim k c :: g' => if Nat.eqb k d then Some (SDim pos (- c)) else dim_position d g' (S pos)
  | _ :: g' => dim_position d g' (S pos)
  | [] => None
  end.
Fixpoint all_some {A} (l : list (option A)) : option (list A) :=
  match l with
  | [] => Some []
  | Some x :: l' => option_map (cons x) (all_some l')
  | None :: _ => None
  end.
Definition af_inverse_of (n : nat) (g : af) : option af :=
  if Nat.eqb n (length g) && forallb is_dim g
  then all_some (map (fun d => dim_position d g 0) (seq 0 n))
  else None.

(** AffineMap::dropResults of the constant results of [g], applied to [f]. *)
Fixpoint drop_csts {A} (g : af) (f : list A) : list A :=
  match g, f with
  | s :: g', x :: f' => if is_cst s then drop_csts g' f' else x :: drop_csts g' f'
  | _, _ => []
  end.
(** mlir::compressUnusedDims. *)
Definition uses_dim (d : nat) (s : sub) : bool :=
  match s with SDim k _ | SAff _ k _ => Nat.eqb k d | SCst _ => false end.
Definition used_dims (n : nat) (g : af) : list nat :=
  filter (fun d => existsb (uses_dim d) g) (seq 0 n).
Fixpoint index_of (d : nat) (l : list nat) : nat :=
  match l with [] => O | x :: l' => if Nat.eqb x d then O else S (index_of d l') end.
Definition compress (n : nat) (g : af) : af :=
  map (fun s => match s with
                | SDim k c => SDim (index_of k (used_dims n g)) c
                | SAff a k c => SAff a (index_of k (used_dims n g)) c
                | SCst c => SCst c
                end) g.

(** Ops.cpp:8572-8640, getReplacementTransformationAccess: from the access [f]
    to be replaced and the write access [g] of an equation of [n] inductions. *)
Definition transformation (n : nat) (f g : af) : option (list sub) :=
  match af_inverse_of n g with
  | Some inv => Some (map (sub_subst f) inv)
  | None =>
      let r := drop_csts g g in
      match af_inverse_of (length (used_dims n r)) (compress n r) with
      | Some inv => Some (map (sub_subst (drop_csts g f)) inv)
      | None => None
      end
  end.

(** The value at a path is replaced (Ops.cpp:8553-8569). *)
Fixpoint replace_at (e : exp) (path : list nat) (r : exp) : option exp :=
  match path, e with
  | [], _ => Some r
  | O :: path', EUn o a => option_map (EUn o) (replace_at a path' r)
  | O :: path', EBin o a b => option_map (fun a' => EBin o a' b) (replace_at a path' r)
  | S O :: path', EBin o a b => option_map (EBin o a) (replace_at b path' r)
  | _, _ => None
  end.
Definition replace_access (t : tmpl) (a : access) (r : exp) : option tmpl :=
  if a_left a
  then option_map (fun e => mkTmpl (t_rank t) e (t_rhs t)) (replace_at (t_lhs t) (a_path a) r)
  else option_map (mkTmpl (t_rank t) (t_lhs t)) (replace_at (t_rhs t) (a_path a) r).

(** Ops.cpp:8320-8570, EquationTemplateOp::cloneWithReplacedAccess, for scalar
    accesses, and mapInductionVariables (8642-8674). [w] is the template of the
    explicit equation, whose left side is the access [g]. [None] is failure. *)
Definition clone_tmpl (t : tmpl) (idx : option bset) (a : access) (w : tmpl) (g : af)
    : option (list (bset * tmpl)) :=
  match transformation (t_rank w) (a_fun a) g with
  | None =>
      match idx with
      | None | Some [] => Some []
      | Some _ => None
      end
  | Some T =>
      if (length T <? t_rank w)%nat then None
      else
        match replace_access t a (exp_subst T (t_rhs w)) with
        | None => None
        | Some t' =>
            match idx with
            | None | Some [] => Some [([], t')]
            | Some s => Some (map (fun b => ([b], t')) s)
            end
        end
  end.

(** Ops.cpp:10146-10205, EquationInstanceOp::cloneWithReplacedAccess. *)
Definition clone_replaced (i : inst) (idx : option bset) (a : access) (w : tmpl) (g : af)
    : res (option (list inst)) :=
  match clone_tmpl (i_tmpl i) idx a w g with
  | None => Ok None
  | Some l =>
      ns <- map_res (fun r => set_indices (mkInst (snd r) (i_idx i) (i_match i))
                                (if bs_empty (i_idx i) then [] else fst r) []) l ;;
      Ok (Some ns)
  end.

(** * SCCSolvingBySubstitution.cpp *)

(** Lines 30-60, CyclicEquation: the operation, its indices in the cycle, the
    access by which it reads what the next equation writes. *)
Record cyc := mkCyc { c_op : nat; c_idx : bset; c_read : access }.
Definition ops := list (nat * inst).
Fixpoint op_of (l : ops) (n : nat) : option inst :=
  match l with
  | [] => None
  | (k, i) :: l' => if Nat.eqb k n then Some i else op_of l' n
  end.

Section Solving.
(** EquationInstanceOp::cloneAndExplicitate (Ops.cpp:10126-10144), any function
    (its correctness is C39). *)
Variable explicit : inst -> option inst.

(** Lines 357-376: the iterations of the reading equation to be replaced. *)
Definition reading_indices (i : inst) (c : cyc) (x : inst) (g : af) : option bset :=
  let written := af_map (t_rank (i_tmpl x)) g (i_idx x) in
  let s :=
    if bs_empty written then c_idx c
    else bs_intersect (af_preimage (t_rank (i_tmpl i)) (a_fun (c_read c)) written (c_idx c)) (c_idx c) in
  if bs_empty s then None else Some s.

(** Lines 326-402: the loop over the writing equations. The equations created
    before a failure stay in the list. *)
Fixpoint substitute (i : inst) (c : cyc) (ws acc : list inst) : res (bool * list inst) :=
  match ws with
  | [] => Ok (true, acc)
  | w :: ws' =>
      match explicit w with
      | None => Ok (false, acc)
      | Some x =>
          match t_lhs (i_tmpl x) with
          | EAcc _ g =>
              r <- clone_replaced i (reading_indices i c x g) (c_read c) (i_tmpl x) g ;;
              match r with
              | None => Ok (false, acc)
              | Some ns => substitute i c ws' (acc ++ ns)
              end
          | _ => Ok (false, acc)
          end
      end
  end.

(** Lines 289-417: the equations that the first equation of the cycle becomes.
    The operations made for the rest of the cycle are erased. *)
Fixpoint solve (l : ops) (cycle : list cyc) : res (bool * list inst) :=
  match cycle with
  | [] => Bad
  | [c] => i <- of_option (op_of l (c_op c)) ;; Ok (true, [i])
  | c :: rest =>
      r <- solve l rest ;;
      if fst r then
        i <- of_option (op_of l (c_op c)) ;;
        substitute i c (snd r) []
      else Ok (false, [])
  end.

(** Lines 447-485, isContainedInBiggerCycle; [before] are the cycles before
    this one, the longest first. *)
Definition involved (c : list cyc) : list nat := map c_op (tl c).
Definition subset (a b : list nat) : bool := forallb (fun x => existsb (Nat.eqb x) b) a.
Fixpoint contained (before : list (list cyc)) (c : list cyc) : bool :=
  match before with
  | [] => false
  | o :: before' =>
      if (length o <=? length c)%nat then false
      else (subset (involved c) (involved o) && negb (subset (involved o) (involved c)))
           || contained before' c
  end.

(** The state of the loop: the operations of the component, those that the next
    search looks at, the new ones, those to be erased, a fresh number. *)
Record state := mkState { s_ops : ops; s_cur : list nat; s_new : list nat;
                          s_erased : list nat; s_next : nat }.
Definition mem (n : nat) (l : list nat) : bool := existsb (Nat.eqb n) l.

Definition number (n : nat) (l : list inst) : ops := combine (seq n (length l)) l.
Definition add_ops (s : state) (l : list inst) : state :=
  mkState (s_ops s ++ number (s_next s) l) (s_cur s) (s_new s) (s_erased s) (s_next s + length l).

(** Lines 548-583: the effects of a solved cycle. *)
Definition replace_first (s : state) (c : list cyc) (ns : list inst) : res state :=
  match c with
  | [] => Bad
  | f :: _ =>
      i <- of_option (op_of (s_ops s) (c_op f)) ;;
      let s1 := add_ops s ns in
      let ids := seq (s_next s) (length ns) in
      let remaining := fold_left (fun r n => bs_diff r (i_idx n)) ns (i_idx i) in
      s2 <- (if bs_empty (i_idx i) || bs_empty remaining then Ok s1
             else k <- set_indices i remaining [] ;;
                  let s' := add_ops s1 [k] in
                  Ok (mkState (s_ops s') [s_next s1] (s_new s') (s_erased s') (s_next s'))) ;;
      Ok (mkState (s_ops s2) (s_cur s2) (s_new s2 ++ ids) (c_op f :: s_erased s2) (s_next s2))
  end.

(** Lines 519-587: one round over the cycles found; [currentEquations] is
    cleared for each cycle. A cycle that could not be solved leaves what it has
    created in the component. The set nonExplicitableEquations has no effect:
    the continue of line 542 belongs to the loop of line 536. *)
Fixpoint try_cycles (before todo : list (list cyc)) (s : state) : res state :=
  match todo with
  | [] => Ok s
  | c :: todo' =>
      let s0 := mkState (s_ops s) [] (s_new s) (s_erased s) (s_next s) in
      if contained before c then try_cycles (before ++ [c]) todo' s0
      else
        r <- solve (s_ops s0) c ;;
        if fst r then replace_first s0 c (snd r)
        else try_cycles (before ++ [c]) todo' (add_ops s0 (snd r))
  end.

(** The search of the cycles (lines 222-287), any function of the equations
    looked at. *)
Variable cycles_of : ops -> list (list cyc).
Definition ops_of (l : ops) (ids : list nat) : ops :=
  flat_map (fun n => match op_of l n with Some i => [(n, i)] | None => [] end) ids.

(** Lines 589-608: the equations of the next search. *)
Definition next_current (originals : list nat) (s : state) : state :=
  let live := filter (fun n => negb (mem n (s_erased s))) in
  mkState (s_ops s) (s_cur s ++ live originals ++ live (s_new s)) (s_new s) (s_erased s) (s_next s).

(** Lines 517-608, at most [n] rounds; [true] when no cycle is left. *)
Fixpoint rounds (n : nat) (originals : list nat) (cycles : list (list cyc)) (s : state)
    : res (state * bool) :=
  match cycles with
  | [] => Ok (s, true)
  | _ =>
      match n with
      | O => Ok (s, false)
      | S n' =>
          s1 <- try_cycles [] cycles s ;;
          let s2 := next_current originals s1 in
          rounds n' originals (cycles_of (ops_of (s_ops s2) (s_cur s2))) s2
      end
  end.

(** Lines 487-651, solveCycle of a component: the equations left in it, before
    createSCCs distributes them among new components (not modelled). *)
Definition solve_component (maxEquations maxIterations : nat) (eqs : list inst) : res (list inst) :=
  if (maxEquations <? length eqs)%nat then Ok eqs
  else
    let l := number 0 eqs in
    let originals := seq 0 (length eqs) in
    r <- rounds maxIterations originals (cycles_of l) (mkState l originals [] [] (length eqs)) ;;
    let '(s, solved) := r in
    if solved : bool
    then Ok (map snd (filter (fun o => negb (mem (fst o) (s_erased s))) (s_ops s)))
    else Ok (map snd (filter (fun o => negb (mem (fst o) (s_new s))) (s_ops s))).
End Solving.
