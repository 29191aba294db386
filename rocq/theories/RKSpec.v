(** What a Runge-Kutta method is, independently of the code: the equations of
    its stages, the published tableaux, the order conditions. *)
From Coq Require Import String ZArith QArith Qreals Reals List.
Import ListNotations.
Local Open Scope list_scope.

(** ** The step *)

(** A method with [stages] stages: its matrix, its weights, its nodes; rows and
    columns count from 0. *)
Record rk_method := mk_method {
  stages : nat;
  mat : nat -> nat -> Q;
  wts : nat -> Q;
  nds : nat -> Q
}.

Local Open Scope R_scope.

(** f 0 + ... + f (n - 1) *)
Fixpoint Rsum (n : nat) (f : nat -> R) : R :=
  match n with
  | O => 0
  | S n' => Rsum n' f + f n'
  end.

(** The slopes [k] of the method [M] for the problem y' = f t y, at the time
    [t], with the step [h], from the state [y]. The unknowns are indexed by
    [S]; [dom] are the ones that belong to the problem. *)
Definition is_slopes {S} (M : rk_method) (dom : S -> Prop)
    (f : R -> (S -> R) -> S -> R) (t h : R) (y : S -> R) (k : nat -> S -> R) :=
  forall i v, (i < stages M)%nat -> dom v ->
    k i v = f (t + Q2R (nds M i) * h)
              (fun w => y w + h * Rsum (stages M) (fun j => Q2R (mat M i j) * k j w)) v.

(** The values reached from the slopes with the weights [b]. *)
Definition is_update {S} (n : nat) (b : nat -> Q) (dom : S -> Prop) (h : R)
    (y : S -> R) (k : nat -> S -> R) (y' : S -> R) :=
  forall v, dom v -> y' v = y v + h * Rsum n (fun j => Q2R (b j) * k j v).

(** One step of the method leads from [y] to [y']. *)
Definition is_step {S} (M : rk_method) (dom : S -> Prop)
    (f : R -> (S -> R) -> S -> R) (t h : R) (y y' : S -> R) :=
  exists k, is_slopes M dom f t h y k /\ is_update (stages M) (wts M) dom h y k y'.

(** ** The published methods *)

(** The rows of the matrix up to their last entry, the nodes, the weights, and
    the weights of the embedded method (none: []). *)
Record published := mk_published {
  p_matrix : list (list Q);
  p_nodes : list Q;
  p_weights : list Q;
  p_embedded : list Q
}.

Definition method_of (p : published) : rk_method :=
  mk_method (length (p_weights p))
    (fun i j => nth j (nth i (p_matrix p) []) 0%Q)
    (fun j => nth j (p_weights p) 0%Q)
    (fun i => nth i (p_nodes p) 0%Q).

Local Open Scope Q_scope.

(** Euler, 1768. *)
Definition explicit_euler := mk_published [[]] [0] [1] [].
Definition implicit_euler := mk_published [[1]] [1] [1] [].

(** Kutta, 1901: the classical method. *)
Definition kutta := mk_published
  [[]; [1#2]; [0; 1#2]; [0; 0; 1]] [0; 1#2; 1#2; 1] [1#6; 1#3; 1#3; 1#6] [].

(** Second order with two stages: the explicit midpoint method, Heun's method,
    Ralston's method. *)
Definition explicit_midpoint := mk_published [[]; [1#2]] [0; 1#2] [0; 1] [].
Definition heun_method := mk_published [[]; [1]] [0; 1] [1#2; 1#2] [].
Definition ralston_method := mk_published [[]; [2#3]] [0; 2#3] [1#4; 3#4] [].

(** Heun's method with Euler's embedded. *)
Definition heun_euler_pair := mk_published [[]; [1]] [0; 1] [1#2; 1#2] [1; 0].

(** Bogacki and Shampine, 1989. *)
Definition bogacki_shampine_pair := mk_published
  [[]; [1#2]; [0; 3#4]; [2#9; 1#3; 4#9]]
  [0; 1#2; 3#4; 1] [2#9; 1#3; 4#9; 0] [7#24; 1#4; 1#3; 1#8].

(** Fehlberg, 1969: RKF4(5). *)
Definition fehlberg_pair := mk_published
  [[];
   [1#4];
   [3#32; 9#32];
   [1932#2197; (-7200)#2197; 7296#2197];
   [439#216; (-8)#1; 3680#513; (-845)#4104];
   [(-8)#27; 2; (-3544)#2565; 1859#4104; (-11)#40]]
  [0; 1#4; 3#8; 12#13; 1; 1#2]
  [16#135; 0; 6656#12825; 28561#56430; (-9)#50; 2#55]
  [25#216; 0; 1408#2565; 2197#4104; (-1)#5; 0].

(** Cash and Karp, 1990. *)
Definition cash_karp_pair := mk_published
  [[];
   [1#5];
   [3#40; 9#40];
   [3#10; (-9)#10; 6#5];
   [(-11)#54; 5#2; (-70)#27; 35#27];
   [1631#55296; 175#512; 575#13824; 44275#110592; 253#4096]]
  [0; 1#5; 3#10; 3#5; 1; 7#8]
  [37#378; 0; 250#621; 125#594; 0; 512#1771]
  [2825#27648; 0; 18575#48384; 13525#55296; 277#14336; 1#4].

(** Dormand and Prince, 1980: RK5(4)7M. *)
Definition dormand_prince_pair := mk_published
  [[];
   [1#5];
   [3#40; 9#40];
   [44#45; (-56)#15; 32#9];
   [19372#6561; (-25360)#2187; 64448#6561; (-212)#729];
   [9017#3168; (-355)#33; 46732#5247; 49#176; (-5103)#18656];
   [35#384; 0; 500#1113; 125#192; (-2187)#6784; 11#84]]
  [0; 1#5; 3#10; 4#5; 8#9; 1; 1]
  [35#384; 0; 500#1113; 125#192; (-2187)#6784; 11#84; 0]
  [5179#57600; 0; 7571#16695; 393#640; (-92097)#339200; 187#2100; 1#40].

(** The names of the variants, the method each stands for, its order and the
    order of the embedded method (0 when there is none). *)
Definition catalogue : list (string * (published * (nat * nat))) :=
  [("euler-forward", (explicit_euler, (1, 0)));
   ("midpoint", (explicit_midpoint, (2, 0)));
   ("heun", (heun_method, (2, 0)));
   ("ralston", (ralston_method, (2, 0)));
   ("rk4", (kutta, (4, 0)));
   ("heun-euler", (heun_euler_pair, (2, 1)));
   ("bogacki-shampine", (bogacki_shampine_pair, (3, 2)));
   ("fehlberg", (fehlberg_pair, (5, 4)));
   ("cash-karp", (cash_karp_pair, (5, 4)));
   ("dormand-prince", (dormand_prince_pair, (5, 4)));
   ("euler-backward", (implicit_euler, (1, 0)))]%string%nat.

(** ** The order conditions *)

(** Butcher's theory: a rooted tree for each elementary differential. *)
Inductive tree := Node (children : list tree).

Fixpoint tree_size (t : tree) : nat :=
  match t with
  | Node l => S (fold_right (fun u n => (tree_size u + n)%nat) O l)
  end.

(** The density: the size of the tree times the densities of its branches. *)
Fixpoint density (t : tree) : Z :=
  match t with
  | Node l => (Z.of_nat (tree_size t) * fold_right (fun u n => density u * n) 1 l)%Z
  end.

Fixpoint Qsum (n : nat) (f : nat -> Q) : Q :=
  match n with
  | O => 0
  | S n' => Qred (Qsum n' f + f n')
  end.

(** The weight of a tree at a stage. *)
Fixpoint stage_weight (M : rk_method) (t : tree) (i : nat) : Q :=
  match t with
  | Node l =>
      fold_right (fun u q =>
        Qsum (stages M) (fun j => mat M i j * stage_weight M u j) * q) 1 l
  end.

(** The elementary weight, for the weights [b] of the method. *)
Definition elementary_weight (M : rk_method) (b : nat -> Q) (t : tree) : Q :=
  Qsum (stages M) (fun i => b i * stage_weight M t i).

(** The order conditions up to [p]: the weight of every tree with at most [p]
    nodes is the inverse of its density. *)
Definition order_at_least (M : rk_method) (b : nat -> Q) (p : nat) : Prop :=
  forall t, (tree_size t <= p)%nat ->
    elementary_weight M b t * inject_Z (density t) == 1.

(** Every node is the sum of its row. *)
Definition nodes_are_row_sums (M : rk_method) : Prop :=
  forall i, (i < stages M)%nat -> nds M i == Qsum (stages M) (mat M i).

(** A stage that only uses the ones before it. *)
Definition explicit_method (M : rk_method) : Prop :=
  forall i j, (i <= j < stages M)%nat -> mat M i j == 0.

(** Two methods with the same entries. *)
Definition same_method (M N : rk_method) : Prop :=
  stages M = stages N /\
  (forall i j, (i < stages M)%nat -> (j < stages M)%nat -> mat M i j == mat N i j) /\
  (forall j, (j < stages M)%nat -> wts M j == wts N j) /\
  (forall i, (i < stages M)%nat -> nds M i == nds N i).

Local Close Scope Q_scope.
