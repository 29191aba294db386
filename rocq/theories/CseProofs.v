(** * Proofs about the elimination of repeated calls *)
From Coq Require Import ZArith List Bool Arith Lia Permutation.
From Verif Require Import RangeModel MDRangeModel BoxSetModel BoxSetProofs Spec Result AccessModel WritesMapModel
  CseModel CseSpec.
Import ListNotations.
Local Open Scope nat_scope.

(** ** Induction on expressions *)

Section IND.
Variable P : xexp -> Prop.
Hypothesis Hnum : forall z, P (XNum z).
Hypothesis Hvar : forall x, P (XVar x).
Hypothesis Hind : forall k, P (XInd k).
Hypothesis Harg : forall d k, P (XArg d k).
Hypothesis Happ : forall o l, Forall P l -> P (XApp o l).
Hypothesis Hcall : forall f l, Forall P l -> P (XCall f l).
Hypothesis Hred : forall a l b, Forall P l -> P b -> P (XRed a l b).
Fixpoint xexp_all (e : xexp) : P e :=
  let all := fix all (l : list xexp) : Forall P l :=
    match l with
    | [] => Forall_nil P
    | x :: l' => Forall_cons x (xexp_all x) (all l')
    end in
  match e with
  | XNum z => Hnum z
  | XVar x => Hvar x
  | XInd k => Hind k
  | XArg d k => Harg d k
  | XApp o l => Happ o l (all l)
  | XCall f l => Hcall f l (all l)
  | XRed a l b => Hred a l b (all l) (xexp_all b)
  end.
End IND.

Fixpoint compare_list (l m : list xexp) {struct l} : option (list (nat * nat) * list (nat * nat)) :=
  match l, m with
  | [], [] => Some ([], [])
  | x :: l', y :: m' =>
      match compare x y, compare_list l' m' with
      | Some (p, q), Some (p', q') => Some (p ++ p', q ++ q')
      | _, _ => None
      end
  | _, _ => None
  end.
Lemma compare_app : forall o l o' m, compare (XApp o l) (XApp o' m) =
  if Nat.eqb o o' then match compare_list l m with Some (p, q) => Some (p ++ q, []) | None => None end else None.
Proof. reflexivity. Qed.
Lemma compare_call : forall o l o' m, compare (XCall o l) (XCall o' m) =
  if Nat.eqb o o' then match compare_list l m with Some (p, q) => Some (p ++ q, []) | None => None end else None.
Proof. reflexivity. Qed.
Lemma compare_red : forall c l x c' m y, compare (XRed c l x) (XRed c' m y) =
  if Nat.eqb c c' then
    match compare_list l m, compare x y with
    | Some (p, q), Some (p', q') => Some ((p ++ q) ++ p' ++ q', [])
    | _, _ => None
    end
  else None.
Proof. reflexivity. Qed.

Definition clone_list (mapping : list (nat * nat)) (depth : nat) : list xexp -> res (list xexp) :=
  fix clone_list (l : list xexp) : res (list xexp) :=
    match l with
    | [] => Ok []
    | x :: l' => y <- clone_call mapping depth x ;; r <- clone_list l' ;; Ok (y :: r)
    end.
Lemma clone_app : forall mp d o l, clone_call mp d (XApp o l) = (l' <- clone_list mp d l ;; Ok (XApp o l')).
Proof. reflexivity. Qed.
Lemma clone_xcall : forall mp d o l, clone_call mp d (XCall o l) = (l' <- clone_list mp d l ;; Ok (XCall o l')).
Proof. reflexivity. Qed.
Lemma clone_red : forall mp d a l b, clone_call mp d (XRed a l b) =
  (l' <- clone_list mp d l ;; b' <- clone_call mp (S d) b ;; Ok (XRed a l' b')).
Proof. reflexivity. Qed.

(** ** What the comparison pairs *)

Lemma combine_app : forall A B (a a' : list A) (b b' : list B), length a = length b ->
  combine (a ++ a') (b ++ b') = combine a b ++ combine a' b'.
Proof.
  intros A B a. induction a as [|x a IH]; intros a' [|y b] b' L; cbn in *; try discriminate; auto.
  f_equal. apply IH. lia.
Qed.

Lemma compare_perm : forall a b p q, compare a b = Some (p, q) ->
  length (uses a) = length (uses b) /\ Permutation (p ++ q) (combine (uses a) (uses b)).
Proof.
  assert (HL : forall l, Forall (fun a => forall b p q, compare a b = Some (p, q) ->
      length (uses a) = length (uses b) /\ Permutation (p ++ q) (combine (uses a) (uses b))) l ->
    forall m p q, compare_list l m = Some (p, q) ->
      length (flat_map uses l) = length (flat_map uses m) /\
      Permutation (p ++ q) (combine (flat_map uses l) (flat_map uses m))).
  { intros l H. induction H as [|x l Hx _ IH]; intros [|y m] p q E; cbn in E; try discriminate.
    - injection E as <- <-. cbn. auto.
    - destruct (compare x y) as [[p1 q1]|] eqn:E1; [|discriminate].
      destruct (compare_list l m) as [[p2 q2]|] eqn:E2; [|discriminate]. injection E as <- <-.
      destruct (Hx y p1 q1 E1) as [L1 P1]. destruct (IH m p2 q2 E2) as [L2 P2]. cbn.
      rewrite !app_length. split; [lia|]. rewrite combine_app by auto.
      rewrite <- P1, <- P2. rewrite <- !app_assoc. apply Permutation_app_head.
      rewrite !app_assoc. apply Permutation_app_tail. apply Permutation_app_comm. }
  induction a as [z|x|k|d k|o l IH|f l IH|c l b IH IHb] using xexp_all; intros [w|y|j|d' k'|o' m|g m|c' m b'] p q E;
    try discriminate.
  - cbn in E. destruct (z =? w)%Z; [|discriminate]. injection E as <- <-. cbn. auto.
  - cbn in E. destruct (x =? y); [|discriminate]. injection E as <- <-. cbn. auto.
  - cbn in E. injection E as <- <-. cbn. auto.
  - cbn in E. injection E as <- <-. cbn. auto.
  - rewrite compare_app in E. destruct (o =? o'); [|discriminate].
    destruct (compare_list l m) as [[p1 q1]|] eqn:E1; [|discriminate]. injection E as <- <-.
    rewrite app_nil_r. apply (HL l IH m p1 q1 E1).
  - rewrite compare_call in E. destruct (f =? g); [|discriminate].
    destruct (compare_list l m) as [[p1 q1]|] eqn:E1; [|discriminate]. injection E as <- <-.
    rewrite app_nil_r. apply (HL l IH m p1 q1 E1).
  - rewrite compare_red in E. destruct (c =? c'); [|discriminate].
    destruct (compare_list l m) as [[p1 q1]|] eqn:E1; [|discriminate].
    destruct (compare b b') as [[p2 q2]|] eqn:E2; [|discriminate]. injection E as <- <-.
    destruct (HL l IH m p1 q1 E1) as [L1 P1]. destruct (IHb b' p2 q2 E2) as [L2 P2].
    cbn [uses]. rewrite app_nil_r, !app_length. split; [lia|]. rewrite combine_app by auto.
    rewrite P1, P2. apply Permutation_refl.
Qed.

(** The comparison with itself finds the inductions of the second expression in
    the same order. *)
Lemma compare_self : forall b, exists p q, compare b b = Some (p, q) /\
  (forall x, In x p \/ In x q -> fst x = snd x) /\
  forall a p' q', compare a b = Some (p', q') -> map snd p' = map snd p /\ map snd q' = map snd q.
Proof.
  assert (HL : forall m, Forall (fun b => exists p q, compare b b = Some (p, q) /\
      (forall x, In x p \/ In x q -> fst x = snd x) /\
      forall a p' q', compare a b = Some (p', q') -> map snd p' = map snd p /\ map snd q' = map snd q) m ->
    exists p q, compare_list m m = Some (p, q) /\ (forall x, In x p \/ In x q -> fst x = snd x) /\
      forall l p' q', compare_list l m = Some (p', q') -> map snd p' = map snd p /\ map snd q' = map snd q).
  { intros m H. induction H as [|y m (p & q & E & D & K) _ (p2 & q2 & E2 & D2 & K2)].
    - exists [], []. cbn. split; auto. split; [tauto|]. intros [|x l] p' q' G; [|discriminate]. injection G as <- <-. auto.
    - cbn. rewrite E, E2. exists (p ++ p2), (q ++ q2). split; auto. split.
      + intros x. rewrite !in_app_iff. intuition.
      + intros [|x l] p' q' G; cbn in G; [discriminate|].
        destruct (compare x y) as [[p3 q3]|] eqn:E3; [|discriminate].
        destruct (compare_list l m) as [[p4 q4]|] eqn:E4; [|discriminate]. injection G as <- <-.
        destruct (K x p3 q3 E3) as [A B]. destruct (K2 l p4 q4 E4) as [A2 B2].
        rewrite !map_app. split; congruence. }
  induction b as [z|x|k|d k|o l IH|f l IH|c l b IH IHb] using xexp_all.
  - exists [], []. cbn. rewrite Z.eqb_refl. split; auto. split; [tauto|].
    intros [w|y|j|d' k'|o' m|g m|c' m b'] p q E; try discriminate. cbn in E. destruct (w =? z)%Z; [|discriminate].
    injection E as <- <-. auto.
  - exists [], []. cbn. rewrite Nat.eqb_refl. split; auto. split; [tauto|].
    intros [w|y|j|d' k'|o' m|g m|c' m b'] p q E; try discriminate. cbn in E. destruct (y =? x); [|discriminate].
    injection E as <- <-. auto.
  - exists [], [(k, k)]. cbn. split; auto. split.
    + intros x [[]|[<-|[]]]. auto.
    + intros [w|y|j|d' k'|o' m|g m|c' m b'] p q E; try discriminate. cbn in E. injection E as <- <-. auto.
  - exists [], []. cbn. split; auto. split; [tauto|].
    intros [w|y|j|d' k'|o' m|g m|c' m b'] p q E; try discriminate. cbn in E. injection E as <- <-. auto.
  - destruct (HL l IH) as (p & q & E & D & K). exists (p ++ q), []. rewrite compare_app, Nat.eqb_refl, E.
    split; auto. split.
    + intros x. rewrite in_app_iff. cbn. intuition.
    + intros [w|y|j|d' k'|o' m|g m|c' m b'] p' q' G; try discriminate. rewrite compare_app in G.
      destruct (o' =? o); [|discriminate]. destruct (compare_list m l) as [[p1 q1]|] eqn:E1; [|discriminate].
      injection G as <- <-. destruct (K m p1 q1 E1). rewrite !map_app. split; congruence.
  - destruct (HL l IH) as (p & q & E & D & K). exists (p ++ q), []. rewrite compare_call, Nat.eqb_refl, E.
    split; auto. split.
    + intros x. rewrite in_app_iff. cbn. intuition.
    + intros [w|y|j|d' k'|o' m|g m|c' m b'] p' q' G; try discriminate. rewrite compare_call in G.
      destruct (g =? f); [|discriminate]. destruct (compare_list m l) as [[p1 q1]|] eqn:E1; [|discriminate].
      injection G as <- <-. destruct (K m p1 q1 E1). rewrite !map_app. split; congruence.
  - destruct (HL l IH) as (p & q & E & D & K). destruct IHb as (pb & qb & Eb & Db & Kb).
    exists ((p ++ q) ++ pb ++ qb), []. rewrite compare_red, Nat.eqb_refl, E, Eb. split; auto. split.
    + intros x. rewrite !in_app_iff. cbn. intuition.
    + intros [w|y|j|d' k'|o' m|g m|c' m b'] p' q' G; try discriminate. rewrite compare_red in G.
      destruct (c' =? c); [|discriminate]. destruct (compare_list m l) as [[p1 q1]|] eqn:E1; [|discriminate].
      destruct (compare b' b) as [[p2 q2]|] eqn:E2; [|discriminate].
      injection G as <- <-. destruct (K m p1 q1 E1). destruct (Kb b' p2 q2 E2). rewrite !map_app. split; congruence.
Qed.

(** ** Values *)

Lemma compare_value : forall V (M : meaning V) p q, extensional M -> forall a b,
  forall inside ps qs rs, compare a b = Some (ps, qs) -> plain inside a = true -> plain inside b = true ->
  (forall i k, In (i, k) ps \/ In (i, k) qs -> nth i p 0%Z = nth k q 0%Z) ->
  xeval M p rs a = xeval M q rs b.
Proof.
  intros V M p q X.
  assert (HL : forall l, Forall (fun a => forall b inside ps qs rs, compare a b = Some (ps, qs) ->
      plain inside a = true -> plain inside b = true ->
      (forall i k, In (i, k) ps \/ In (i, k) qs -> nth i p 0%Z = nth k q 0%Z) ->
      xeval M p rs a = xeval M q rs b) l ->
    forall m inside ps qs rs, compare_list l m = Some (ps, qs) -> forallb (plain inside) l = true ->
      forallb (plain inside) m = true ->
      (forall i k, In (i, k) ps \/ In (i, k) qs -> nth i p 0%Z = nth k q 0%Z) ->
      map (xeval M p rs) l = map (xeval M q rs) m).
  { intros l H. induction H as [|x l Hx _ IH]; intros [|y m] inside ps qs rs E A B K; cbn in E; try discriminate; auto.
    destruct (compare x y) as [[p1 q1]|] eqn:E1; [|discriminate].
    destruct (compare_list l m) as [[p2 q2]|] eqn:E2; [|discriminate]. injection E as <- <-.
    cbn in A, B. apply andb_true_iff in A as [A1 A2]. apply andb_true_iff in B as [B1 B2]. cbn. f_equal.
    - apply (Hx y inside p1 q1); auto. intros i k H. apply K. rewrite !in_app_iff. tauto.
    - apply (IH m inside p2 q2); auto. intros i k H. apply K. rewrite !in_app_iff. tauto. }
  induction a as [z|x|k|d k|o l IH|f l IH|c l b IH IHb] using xexp_all;
    intros [w|y|j|d' k'|o' m|g m|c' m b'] inside ps qs rs E A B K; try discriminate.
  - cbn in E. destruct (Z.eqb_spec z w); [|discriminate]. subst. auto.
  - cbn in E. destruct (Nat.eqb_spec x y); [|discriminate]. subst. auto.
  - cbn in E. injection E as <- <-. cbn. f_equal. apply K. right. left. auto.
  - cbn in A, B. rewrite !andb_true_iff, !Nat.eqb_eq in A, B.
    destruct A as [[_ A1] A2]. destruct B as [[_ B1] B2]. subst. auto.
  - rewrite compare_app in E. destruct (Nat.eqb_spec o o'); [|discriminate]. subst.
    destruct (compare_list l m) as [[p1 q1]|] eqn:E1; [|discriminate]. injection E as <- <-.
    cbn. f_equal. apply (HL l IH m inside p1 q1); auto. intros i k H. apply K. rewrite in_app_iff. tauto.
  - rewrite compare_call in E. destruct (Nat.eqb_spec f g); [|discriminate]. subst.
    destruct (compare_list l m) as [[p1 q1]|] eqn:E1; [|discriminate]. injection E as <- <-.
    cbn. f_equal. apply (HL l IH m inside p1 q1); auto. intros i k H. apply K. rewrite in_app_iff. tauto.
  - rewrite compare_red in E. destruct (Nat.eqb_spec c c'); [|discriminate]. subst.
    destruct (compare_list l m) as [[p1 q1]|] eqn:E1; [|discriminate].
    destruct (compare b b') as [[p2 q2]|] eqn:E2; [|discriminate]. injection E as <- <-.
    cbn in A, B. rewrite !andb_true_iff in A, B. destruct A as [[[A1 A2] A3] A4]. destruct B as [[[B1 B2] B3] B4].
    cbn. replace (map (xeval M p rs) l) with (map (xeval M q rs) m).
    + apply X. intros vs. apply (IHb b' true p2 q2); auto. intros i k H. apply K. rewrite !in_app_iff. tauto.
    + symmetry. apply (HL l IH m inside p1 q1); auto. intros i k H. apply K. rewrite !in_app_iff. tauto.
Qed.

(** The clone of a call in the equation of the new variable. *)
Lemma clone_value : forall V (M : meaning V) mp q q', extensional M ->
  (forall k m, map_find k (rev mp) = Some m -> nth k q 0%Z = nth m q' 0%Z) ->
  forall e d e' rs, clone_call mp d e = Ok e' -> xeval M q rs e = xeval M q' rs e'.
Proof.
  intros V M mp q q' X K.
  assert (HL : forall l, Forall (fun e => forall d e' rs, clone_call mp d e = Ok e' -> xeval M q rs e = xeval M q' rs e') l ->
    forall d l' rs, clone_list mp d l = Ok l' -> map (xeval M q rs) l = map (xeval M q' rs) l').
  { intros l H. induction H as [|x l Hx _ IH]; intros d l' rs E; cbn [clone_list] in E.
    - injection E as <-. auto.
    - apply bind_ok in E as (y & E1 & E). apply bind_ok in E as (r & E2 & E). injection E as <-.
      cbn. f_equal; eauto. }
  induction e as [z|x|k|d0 k|o l IH|f l IH|c l b IH IHb] using xexp_all; intros d e' rs E.
  - injection E as <-. auto.
  - injection E as <-. auto.
  - cbn [clone_call] in E. apply bind_ok in E as (m & E1 & E). injection E as <-. apply of_option_inv in E1.
    cbn. f_equal. auto.
  - cbn [clone_call] in E. apply bind_ok in E as (u & E1 & E). injection E as <-. auto.
  - rewrite clone_app in E. apply bind_ok in E as (l' & E1 & E). injection E as <-. cbn. f_equal. eauto.
  - rewrite clone_xcall in E. apply bind_ok in E as (l' & E1 & E). injection E as <-. cbn. f_equal. eauto.
  - rewrite clone_red in E. apply bind_ok in E as (l' & E1 & E). apply bind_ok in E as (b' & E2 & E). injection E as <-.
    cbn. rewrite (HL l IH d l' rs E1). apply X. intros vs. eauto.
Qed.

Lemma clone_ok : forall mp e d inside, (inside = true -> 0 < d) -> plain inside e = true ->
  (forall k, In k (uses e) -> exists m, map_find k (rev mp) = Some m) ->
  exists e', clone_call mp d e = Ok e'.
Proof.
  intros mp.
  assert (HL : forall l, Forall (fun e => forall d inside, (inside = true -> 0 < d) -> plain inside e = true ->
      (forall k, In k (uses e) -> exists m, map_find k (rev mp) = Some m) -> exists e', clone_call mp d e = Ok e') l ->
    forall d inside, (inside = true -> 0 < d) -> forallb (plain inside) l = true ->
      (forall k, In k (flat_map uses l) -> exists m, map_find k (rev mp) = Some m) -> exists l', clone_list mp d l = Ok l').
  { intros l H. induction H as [|x l Hx _ IH]; intros d inside D A K; cbn [clone_list]; [eauto|].
    cbn in A. apply andb_true_iff in A as [A1 A2].
    destruct (Hx d inside D A1) as [y Ey]; [intros k H; apply K; cbn; apply in_or_app; auto|].
    destruct (IH d inside D A2) as [r Er]; [intros k H; apply K; cbn; apply in_or_app; auto|].
    rewrite Ey. cbn. rewrite Er. cbn. eauto. }
  induction e as [z|x|k|d0 k|o l IH|f l IH|c l b IH IHb] using xexp_all; intros d inside D A K.
  - cbn. eauto.
  - cbn. eauto.
  - cbn. destruct (K k) as [m E]; [cbn; auto|]. rewrite E. cbn. eauto.
  - cbn in A. rewrite !andb_true_iff, !Nat.eqb_eq in A. destruct A as [[A1 A2] A3]. subst.
    cbn [clone_call]. assert (G : (0 <? d) = true) by (apply Nat.ltb_lt; auto). rewrite G. cbn. eauto.
  - rewrite clone_app. destruct (HL l IH d inside D A) as [l' E]; auto. rewrite E. cbn. eauto.
  - rewrite clone_xcall. destruct (HL l IH d inside D A) as [l' E]; auto. rewrite E. cbn. eauto.
  - rewrite clone_red. cbn in A. rewrite !andb_true_iff in A. destruct A as [[[A1 A2] A3] A4].
    destruct (HL l IH d inside D A3) as [l' E]; [intros k H; apply K; cbn; apply in_or_app; auto|].
    destruct (IHb (S d) true) as [b' Eb]; auto; [lia|intros k H; apply K; cbn; apply in_or_app; auto|].
    rewrite E. cbn. rewrite Eb. cbn. eauto.
Qed.

(** ** Groups *)

Lemma range_ne_eq : forall a b, range_ne a b = false -> a = b.
Proof.
  intros [b1 e1] [b2 e2] H. unfold range_ne in H. cbn in H. rewrite orb_false_iff, !negb_false_iff, !Z.eqb_eq in H.
  destruct H. subst. auto.
Qed.

Definition fits (rep en : entry) : Prop :=
  exists ps, paired (en_call en) (en_call rep) = Some ps /\ en_inds en = order_inds (en_inds rep) ps /\
    (ps = [] \/ exists r1 r2, en_ranges en = Some r1 /\ en_ranges rep = Some r2 /\
       forall i k, In (i, k) ps -> exists a, nth_error r1 i = Some a /\ nth_error r2 k = Some a).
Definition ranged (en : entry) : Prop :=
  forall k, In k (uses (en_call en)) -> exists r, en_ranges en = Some r /\ k < length r.
Definition group_ok (g : list entry) : Prop :=
  exists rep rest ps, g = rep :: rest /\ paired (en_call rep) (en_call rep) = Some ps /\
    en_inds rep = map snd ps /\ Forall (fits rep) g /\ Forall ranged g.

Lemma paired_perm : forall a b ps, paired a b = Some ps ->
  length (uses a) = length (uses b) /\ Permutation ps (combine (uses a) (uses b)).
Proof.
  intros a b ps H. unfold paired in H. destruct (compare a b) as [[p q]|] eqn:E; [|discriminate]. injection H as <-.
  apply compare_perm; auto.
Qed.
Lemma paired_self : forall b, exists ps, paired b b = Some ps /\ (forall x, In x ps -> fst x = snd x) /\
  forall a ps', paired a b = Some ps' -> map snd ps' = map snd ps.
Proof.
  intros b. destruct (compare_self b) as (p & q & E & D & K). exists (p ++ q). unfold paired. rewrite E. split; auto. split.
  - intros x H. apply in_app_or in H. auto.
  - intros a ps' H. destruct (compare a b) as [[p' q']|] eqn:E'; [|discriminate]. injection H as <-.
    destruct (K a p' q' E'). rewrite !map_app. congruence.
Qed.
Lemma paired_uses : forall a b ps i k, paired a b = Some ps -> In (i, k) ps -> In i (uses a) /\ In k (uses b).
Proof.
  intros a b ps i k E H. destruct (paired_perm a b ps E) as [_ P]. apply (Permutation_in _ P) in H.
  split; [apply in_combine_l in H|apply in_combine_r in H]; auto.
Qed.
Lemma uses_paired : forall a b ps k, paired a b = Some ps -> In k (uses b) -> exists i, In (i, k) ps.
Proof.
  intros a b ps k E H. destruct (paired_perm a b ps E) as [L P].
  apply In_nth_error in H as [n Hn].
  destruct (nth_error (uses a) n) as [i|] eqn:Ei.
  2:{ exfalso. apply nth_error_None in Ei. assert (nth_error (uses b) n <> None) by congruence. apply nth_error_Some in H. lia. }
  exists i. apply (Permutation_in _ (Permutation_sym P)).
  clear - Hn Ei. revert n Hn Ei. generalize (uses a) (uses b). intros l. induction l as [|x l IH]; intros [|y m] [|n] H K; cbn in *; try discriminate.
  - injection H as ->. injection K as ->. auto.
  - right. eauto.
Qed.
Lemma follows_paired : forall a b ps i j k, paired a b = Some ps -> follows b a -> In (i, k) ps -> In (j, k) ps -> i = j.
Proof.
  intros a b ps i j k E F H1 H2. destruct (paired_perm a b ps E) as [L P].
  assert (G : forall i, In (i, k) ps -> exists n, nth_error (uses a) n = Some i /\ nth_error (uses b) n = Some k).
  { intros i0 H. apply (Permutation_in _ P) in H. clear - H. revert H. generalize (uses a) (uses b).
    intros l. induction l as [|x l IH]; intros [|y m] H; cbn in H; try contradiction.
    destruct H as [H|H]; [injection H as -> ->; exists 0; auto|]. destruct (IH m H) as (n & A & B). exists (S n). auto. }
  destruct (G i H1) as (n & A & B). destruct (G j H2) as (m & C & D). exact (F n m k i j B D A C).
Qed.

Lemma order_inds_self : forall inds ps, (forall x, In x ps -> fst x = snd x) -> incl inds (map snd ps) -> order_inds inds ps = inds.
Proof.
  intros inds ps D. induction inds as [|k l IH]; intros H; cbn; auto.
  destruct (find (fun p => snd p =? k) ps) as [[i j]|] eqn:E.
  - apply find_some in E as [E1 E2]. cbn in E2. apply Nat.eqb_eq in E2. subst. apply D in E1. cbn in E1. subst.
    cbn. f_equal. apply IH. intros x Hx. apply H. right. auto.
  - exfalso. assert (K : In k (map snd ps)) by (apply H; left; auto).
    apply in_map_iff in K as (x & Ex & Hx). apply (find_none _ _ E) in Hx. rewrite Ex, Nat.eqb_refl in Hx. discriminate.
Qed.

(** Position by position, the inductions of a call and of the first one. *)
Lemma order_inds_pairs : forall inds ps, incl inds (map snd ps) ->
  Forall2 (fun i k => In (i, k) ps) (order_inds inds ps) inds.
Proof.
  intros inds ps. induction inds as [|k l IH]; intros H; cbn; [constructor|].
  destruct (find (fun p => snd p =? k) ps) as [[i j]|] eqn:E.
  - apply find_some in E as [E1 E2]. cbn in E2. apply Nat.eqb_eq in E2. subst. cbn. constructor; auto.
    apply IH. intros x Hx. apply H. right. auto.
  - exfalso. assert (K : In k (map snd ps)) by (apply H; left; auto).
    apply in_map_iff in K as (x & Ex & Hx). apply (find_none _ _ E) in Hx. rewrite Ex, Nat.eqb_refl in Hx. discriminate.
Qed.

Lemma same_ranges_ok : forall ps r1 r2, (forall i k, In (i, k) ps -> i < length r1 /\ k < length r2) ->
  exists b, same_ranges ps r1 r2 = Ok b /\
    (b = true -> forall i k, In (i, k) ps -> exists a, nth_error r1 i = Some a /\ nth_error r2 k = Some a).
Proof.
  induction ps as [|[i k] ps IH]; intros r1 r2 H; cbn.
  - exists true. split; auto. intros _ i k [].
  - destruct (H i k) as [Hi Hk]; [left; auto|].
    destruct (nth_error r1 i) as [a|] eqn:Ea; [|apply nth_error_None in Ea; lia].
    destruct (nth_error r2 k) as [b|] eqn:Eb; [|apply nth_error_None in Eb; lia]. cbn.
    destruct (range_ne a b) eqn:E.
    + exists false. split; auto. discriminate.
    + apply range_ne_eq in E. subst b. destruct (IH r1 r2) as (b & E1 & K); [intros; apply H; right; auto|].
      exists b. split; auto. intros Hb i' k' [G|G]; [|auto]. injection G as <- <-. eauto.
Qed.

Lemma joins_ok : forall c g, group_ok g -> ranged c ->
  exists j, joins c g = Ok j /\ forall l, j = Some l -> group_ok (g ++ [with_inds c l]).
Proof.
  intros c g (rep & rest & ps0 & -> & E0 & I0 & F & R) Rc. cbn [joins].
  assert (Rr : ranged rep) by (inversion R; auto).
  assert (Grow : forall l, fits rep (with_inds c l) -> group_ok ((rep :: rest) ++ [with_inds c l])).
  { intros l H. exists rep, (rest ++ [with_inds c l]), ps0. split; auto. split; auto. split; auto. split.
    - apply Forall_app. auto.
    - apply Forall_app. split; auto. }
  destruct (paired (en_call c) (en_call rep)) as [[|x ps]|] eqn:E.
  - exists (Some []). split; auto. intros l H. injection H as <-. apply Grow. exists []. cbn. split; auto. split; auto.
    destruct (paired_self (en_call rep)) as (ps1 & E1 & _ & K). rewrite E0 in E1. injection E1 as <-.
    rewrite I0, <- (K _ _ E). reflexivity.
  - set (ps' := x :: ps) in *.
    assert (Ux : In (fst x, snd x) ps') by (left; destruct x; auto).
    destruct (Rc (fst x)) as (r1 & Er1 & L1); [apply (paired_uses _ _ _ _ _ E Ux)|].
    destruct (Rr (snd x)) as (r2 & Er2 & L2); [apply (paired_uses _ _ _ _ _ E Ux)|].
    rewrite Er1, Er2. cbn [of_option bind].
    destruct (same_ranges_ok ps' r1 r2) as (b & Eb & Kb).
    { intros i k H. destruct (paired_uses _ _ _ _ _ E H) as [U1 U2].
      destruct (Rc i U1) as (r1' & E1' & G1). destruct (Rr k U2) as (r2' & E2' & G2).
      rewrite Er1 in E1'. rewrite Er2 in E2'. injection E1' as <-. injection E2' as <-. auto. }
    rewrite Eb. cbn [bind]. eexists. split; [reflexivity|]. destruct b; intros l H; [|discriminate].
    injection H as <-. apply Grow. exists ps'. cbn. split; auto. split; auto. right. exists r1, r2. auto.
  - exists None. split; auto. discriminate.
Qed.

Definition bare (c : entry) : nat * nat * xexp * option mdrange := (en_id c, en_call c, en_ranges c).

Lemma add_call_ok : forall c gs, ranged c -> Forall group_ok gs ->
  exists gs', add_call c gs = Ok gs' /\ Forall group_ok gs' /\
    Permutation (map bare (concat gs')) (bare c :: map bare (concat gs)).
Proof.
  intros c gs Rc H. induction H as [|g gs Hg Hgs IH]; cbn [add_call].
  - destruct (paired_self (en_call c)) as (ps & E & D & _). rewrite E. cbn [of_option bind]. eexists. split; [reflexivity|].
    split; [|cbn; auto]. constructor; [|constructor].
    assert (Em : map fst ps = map snd ps) by (apply map_ext_in; auto).
    exists (with_inds c (map fst ps)), [], ps. cbn [en_call with_inds en_inds]. split; auto. split; auto. split; auto. split.
    + constructor; [|constructor]. exists ps. cbn. split; auto. split.
      * symmetry. rewrite Em. apply order_inds_self; auto. intros x Hx. exact Hx.
      * destruct ps as [|[i k] ps]; [left; auto|]. right.
        destruct (paired_uses _ _ _ i k E (or_introl eq_refl)) as [U _]. destruct (Rc i U) as (r & Er & L).
        exists r, r. split; auto. split; auto. intros i' k' Hi. pose proof (D _ Hi) as Di. cbn in Di. subst k'.
        destruct (paired_uses _ _ _ i' i' E Hi) as [U' _]. destruct (Rc i' U') as (r' & Er' & L').
        rewrite Er in Er'. injection Er' as <-.
        destruct (nth_error r i') as [a|] eqn:Ea; [eauto|apply nth_error_None in Ea; lia].
    + constructor; [|constructor]. exact Rc.
  - destruct (joins_ok c g Hg Rc) as (j & Ej & Kj). rewrite Ej. cbn [bind]. destruct j as [l|].
    + eexists. split; [reflexivity|]. split.
      * constructor; auto.
      * cbn. rewrite !map_app. cbn. rewrite <- app_assoc. cbn. symmetry.
        apply (Permutation_middle (map bare g) (map bare (concat gs)) (bare c)).
    + destruct IH as (gs' & E & K & P). rewrite E. cbn [bind]. eexists. split; [reflexivity|]. split.
      * constructor; auto.
      * cbn. rewrite !map_app. rewrite P. symmetry. apply Permutation_middle.
Qed.

Lemma build_groups_from : forall cs gs, Forall ranged cs -> Forall group_ok gs ->
  exists gs', fold_res (fun gs c => add_call c gs) cs gs = Ok gs' /\ Forall group_ok gs' /\
    Permutation (map bare (concat gs')) (map bare cs ++ map bare (concat gs)).
Proof.
  induction cs as [|c cs IH]; intros gs H G; cbn.
  - exists gs. auto.
  - inversion H as [|? ? Hc Hcs]; subst. destruct (add_call_ok c gs Hc G) as (g1 & E1 & G1 & P1). rewrite E1. cbn [bind].
    destruct (IH g1 Hcs G1) as (gs' & E & G' & P). exists gs'. split; auto. split; auto.
    rewrite P, P1. symmetry. apply Permutation_middle.
Qed.

(** ** The new variable *)

Lemma map_res_forall2 : forall A B (f : A -> res B) l r, map_res f l = Ok r -> Forall2 (fun x y => f x = Ok y) l r.
Proof.
  intros A B f l. induction l as [|x l IH]; intros r H; cbn in H.
  - injection H as <-. constructor.
  - apply bind_ok in H as (y & E & H). apply bind_ok in H as (ys & Es & H). injection H as <-. constructor; auto.
Qed.
Lemma map_res_all : forall A B (f : A -> res B) l, (forall x, In x l -> exists y, f x = Ok y) -> exists r, map_res f l = Ok r.
Proof.
  intros A B f l. induction l as [|x l IH]; intros H; cbn; [eauto|].
  destruct (H x (or_introl eq_refl)) as [y Hy]. rewrite Hy. cbn.
  destruct IH as [r Hr]; [intros z Hz; apply H; right; auto|]. rewrite Hr. cbn. eauto.
Qed.
Lemma forall2_nth : forall A B (R : A -> B -> Prop) l m, Forall2 R l m -> forall n x y,
  nth_error l n = Some x -> nth_error m n = Some y -> R x y.
Proof.
  intros A B R l m H. induction H as [|a b l m Hab _ IH]; intros [|n] x y E F; cbn in *; try discriminate.
  - injection E as <-. injection F as <-. auto.
  - eauto.
Qed.
Lemma Forall2_length : forall A B (R : A -> B -> Prop) l m, Forall2 R l m -> length l = length m.
Proof. intros A B R l m H. induction H; cbn; auto. Qed.
Lemma map_find_in : forall A (x : nat) (a : A) m, map_find x m = Some a -> In (x, a) m.
Proof.
  intros A x a m. induction m as [|[y b] m IH]; cbn; [discriminate|].
  destruct (Nat.eqb_spec x y) as [e|n]; intros H.
  - injection H as ->. subst. auto.
  - right. auto.
Qed.
Lemma map_find_some : forall A (x : nat) (m : list (nat * A)), In x (map fst m) -> exists a, map_find x m = Some a.
Proof.
  intros A x m. induction m as [|[y b] m IH]; cbn; intros H; [destruct H|].
  destruct (Nat.eqb_spec x y) as [e|n]; [eauto|]. destruct H as [H|H]; [congruence|auto].
Qed.
(** The positions of the inductions. *)
Lemma mapping_in : forall (ks : list nat) k m s, In (k, m) (combine ks (seq s (length ks))) -> s <= m /\ nth_error ks (m - s) = Some k.
Proof.
  induction ks as [|a ks IH]; intros k m s H; cbn in H; [destruct H|]. destruct H as [H|H].
  - injection H as -> ->. rewrite Nat.sub_diag. auto.
  - apply IH in H as [L H]. split; [lia|]. replace (m - s) with (S (m - S s)) by lia. exact H.
Qed.
Lemma mapping_find : forall (ks : list nat) k m, map_find k (rev (combine ks (seq 0 (length ks)))) = Some m -> nth_error ks m = Some k.
Proof.
  intros ks k m H. apply map_find_in in H. apply in_rev, mapping_in in H as [_ H]. rewrite Nat.sub_0_r in H. exact H.
Qed.
Lemma combine_fst : forall A B (l : list A) (m : list B), length l = length m -> map fst (combine l m) = l.
Proof. induction l as [|x l IH]; intros [|y m] L; cbn in *; try discriminate; auto. f_equal. apply IH. lia. Qed.
Lemma mapping_some : forall (ks : list nat) k, In k ks -> exists m, map_find k (rev (combine ks (seq 0 (length ks)))) = Some m.
Proof.
  intros ks k H. apply map_find_some. rewrite map_rev. apply in_rev. rewrite rev_involutive.
  rewrite combine_fst; auto. rewrite seq_length. auto.
Qed.

Lemma subscripts_lhs : forall (l : list Z) q s, length q = length l ->
  forall q0, length q0 = s -> subscripts (combine (seq s (length l)) l) (q0 ++ q) = map (fun x => (fst x + snd x)%Z) (combine q l).
Proof.
  induction l as [|a l IH]; intros [|x q] s L q0 Q; cbn in *; try discriminate; auto. f_equal.
  - rewrite app_nth2 by lia. rewrite Q, Nat.sub_diag. reflexivity.
  - specialize (IH q (S s)). replace (q0 ++ x :: q) with ((q0 ++ [x]) ++ q) by (rewrite <- app_assoc; auto).
    apply IH; [lia|]. rewrite app_length. cbn. lia.
Qed.

Lemma subscripts_lhs0 : forall (l : list Z) q, length q = length l ->
  subscripts (combine (seq 0 (length l)) l) q = map (fun x => (fst x + snd x)%Z) (combine q l).
Proof. intros l q L. exact (subscripts_lhs l q 0 L [] eq_refl). Qed.

Lemma in_box_nth : forall r p k a, in_box p r -> nth_error r k = Some a -> in_range (nth k p 0%Z) a.
Proof.
  intros r p k a H. revert k. induction H as [|x b p r Hx _ IH]; intros [|k] E; cbn in *; try discriminate.
  - injection E as <-. auto.
  - auto.
Qed.

(** What the subscripts say. *)
Definition shifted (rs : mdrange) (is_ : list nat) (sub : list (nat * Z)) : Prop :=
  Forall2 (fun i s => exists a, nth_error rs i = Some a /\ s = (i, (- rbegin a)%Z)) is_ sub.
Lemma shift_inv : forall r inds l, shift r inds = Ok l -> shifted r inds l.
Proof.
  intros r inds l H. apply map_res_forall2 in H. induction H as [|i s is_ l Hi _ IH]; constructor; auto.
  apply bind_ok in Hi as (a & Ea & E). apply of_option_inv in Ea. injection E as <-. eauto.
Qed.

Section ONE.
Variable g : list entry.
Variable c : cse.
Variable rep : entry.
Variable rest : list entry.
Hypothesis Eg : g = rep :: rest.
Hypothesis Hg : group_ok g.
Hypothesis Ec : emit_cse g = Ok c.

Lemma emit_parts : exists r box begins,
  entry_ranges rep = Ok r /\ Forall2 (fun k a => nth_error r k = Some a) (en_inds rep) box /\
  cs_box c = box /\ cs_sizes c = map range_size box /\
  begins = map (fun a => (- rbegin a)%Z) box /\
  cs_lhs c = combine (seq 0 (length begins)) begins /\
  clone_call (combine (en_inds rep) (seq 0 (length (en_inds rep)))) 0 (en_call rep) = Ok (cs_rhs c) /\
  Forall2 (fun en u => fst u = en /\ exists rc, entry_ranges en = Ok rc /\ shifted rc (en_inds en) (snd u)) g (cs_uses c).
Proof.
  subst g. cbn [emit_cse] in Ec.
  apply bind_ok in Ec as (r & Er & E). apply bind_ok in E as (box & Eb & E). apply bind_ok in E as (begins & Es & E).
  apply bind_ok in E as (rhs & Eh & E). apply bind_ok in E as (us & Eu & E). injection E as <-. cbn [cs_box cs_sizes cs_lhs cs_rhs cs_uses].
  apply map_res_forall2 in Eb. apply shift_inv in Es. apply map_res_forall2 in Eu.
  assert (B : Forall2 (fun k a => nth_error r k = Some a) (en_inds rep) box).
  { clear - Eb. induction Eb as [|k a ks box H _ IH]; constructor; auto. apply of_option_inv in H. auto. }
  assert (N : map snd begins = map (fun a => (- rbegin a)%Z) box).
  { clear - Es B. revert begins Es. induction B as [|k a ks box H _ IH]; intros begins Es; inversion Es; subst; cbn; auto.
    destruct H2 as (a' & H2 & ->). f_equal; auto. rewrite H in H2. injection H2 as <-. auto. }
  exists r, box, (map snd begins). repeat split; auto.
  - assert (L : length (map snd begins) = length (en_inds rep)).
    { rewrite N, map_length. apply Forall2_length in B. auto. }
    rewrite L. reflexivity.
  - clear - Eu. induction Eu as [|en u l us H _ IH]; constructor; auto.
    apply bind_ok in H as (rc & H1 & H). apply bind_ok in H as (sl & H2 & H). injection H as <-. cbn. split; auto.
    exists rc. split; auto. apply shift_inv; auto.
Qed.

Lemma one_value : forall V (M : meaning V) v en sub p, extensional M -> driven M c v ->
  In (en, sub) (cs_uses c) -> plain false (en_call rep) = true -> plain false (en_call en) = true ->
  follows (en_call rep) (en_call en) -> (forall r, en_ranges en = Some r -> in_box p r) ->
  element (cs_sizes c) (subscripts sub p) /\ v (subscripts sub p) = xeval M p [] (en_call en).
Proof.
  intros V M v en sub p X D Hin Pr Pe F Hp.
  destruct emit_parts as (r & box & begins & Er & B & Eb & Es & En & El & Eh & Eu).
  destruct Hg as (rep' & rest' & ps0 & Eg' & E0 & I0 & Fi & Ra). rewrite Eg in Eg'. injection Eg' as <- <-.
  assert (U : exists rc, entry_ranges en = Ok rc /\ shifted rc (en_inds en) sub /\ In en g).
  { clear - Eu Hin. induction Eu as [|e u l us [H1 (rc & H2 & H3)] _ IH]; [destruct Hin|].
    destruct Hin as [->|Hin].
    - cbn in *. subst. exists rc. auto.
    - destruct (IH Hin) as (rc' & A & B & C). exists rc'. split; auto. split; auto. right. auto. }
  destruct U as (rc & Erc & Sh & Heng).
  rewrite Forall_forall in Fi. destruct (Fi en Heng) as (ps & Ep & Ei & Rg).
  destruct (paired_self (en_call rep)) as (ps1 & E1 & _ & Ks). rewrite E0 in E1. injection E1 as <-.
  assert (Eks : en_inds rep = map snd ps) by (rewrite I0; symmetry; apply (Ks _ _ Ep)).
  assert (Pairs : Forall2 (fun i k => In (i, k) ps) (en_inds en) (en_inds rep)).
  { rewrite Ei. apply order_inds_pairs. rewrite Eks. apply incl_refl. }
  (* position by position *)
  assert (Z4 : Forall2 (fun is_ a => snd is_ = (fst is_, (- rbegin a)%Z) /\ (exists x, nth_error rc (fst is_) = Some a /\ x = a)) (combine (en_inds en) sub) box).
  { assert (G : forall i k a, In (i, k) ps -> nth_error r k = Some a -> nth_error rc i = Some a).
    { intros i k a Hik Hk. destruct Rg as [->|(r1 & r2 & A1 & A2 & A3)]; [destruct Hik|].
      assert (rc = r1).
      { unfold entry_ranges in Erc. remember (en_inds en) as is_ eqn:Ee.
        destruct is_ as [|i0 is_]; [|rewrite A1 in Erc; cbn in Erc; congruence].
        exfalso. assert (Hk' : In k (en_inds rep)) by (rewrite Eks; apply in_map_iff; exists (i, k); auto).
        apply Forall2_length in Pairs. destruct (en_inds rep); [destruct Hk'|discriminate Pairs]. }
      assert (r = r2).
      { unfold entry_ranges in Er. remember (en_inds rep) as ks eqn:Ee.
        destruct ks as [|k0 ks]; [|rewrite A2 in Er; cbn in Er; congruence].
        exfalso. assert (Hk' : In k (map snd ps)) by (apply in_map_iff; exists (i, k); auto).
        rewrite <- Eks in Hk'. destruct Hk'. }
      subst. destruct (A3 i k Hik) as (a' & H1 & H2). congruence. }
    revert B Sh Pairs. generalize (en_inds rep) (en_inds en). clear - G. intros ks is_ B. revert is_ sub.
    induction B as [|k a ks box Ha _ IH]; intros is_ sub Sh Pairs; inversion Pairs; subst.
    - inversion Sh; subst. constructor.
    - inversion Sh as [|? s ? sub' (a' & S1 & S2)]; subst. cbn. constructor; [|apply IH; auto].
      match goal with Hk : In (?i, k) ps |- _ => pose proof (G i k a Hk Ha) as G1 end.
      rewrite G1 in S1. injection S1 as <-. cbn. eauto. }
  set (q := map (fun i => nth i p 0%Z) (en_inds en)).
  assert (Lsub : length sub = length (en_inds en)) by (apply Forall2_length in Sh; auto).
  assert (Lbox : length box = length (en_inds en)).
  { apply Forall2_length in Z4. rewrite combine_length, Lsub, Nat.min_id in Z4. auto. }
  assert (Prange : forall i a, In i (en_inds en) -> nth_error rc i = Some a -> in_range (nth i p 0%Z) a).
  { intros i a Hi Ha. unfold entry_ranges in Erc. destruct (en_inds en) eqn:Ee; [destruct Hi|].
    apply of_option_inv in Erc. apply (in_box_nth rc); auto. }
  assert (Both : in_box q box /\ subscripts (cs_lhs c) q = subscripts sub p /\ element (cs_sizes c) (subscripts sub p)).
  { assert (Es1 : subscripts (cs_lhs c) q = map (fun x => (fst x + snd x)%Z) (combine q (map (fun a => (- rbegin a)%Z) box))).
    { rewrite El, En. apply subscripts_lhs0. unfold q. rewrite !map_length. auto. }
    rewrite Es1, Es. unfold q, element, in_box, subscripts.
    revert Sh Z4 Prange Lsub. generalize (en_inds en). clear. intros is_ Sh Z4 Prange L. revert sub Sh Z4 L.
    revert is_ Prange. induction box as [|a box IH]; intros is_ Prange sub Sh Z4 L.
    - inversion Z4 as [E|]. destruct is_ as [|i is_]; destruct sub as [|s sub]; cbn in *; try discriminate. repeat split; constructor.
    - destruct is_ as [|i is_]; destruct sub as [|s sub]; cbn in L; try discriminate; inversion Z4; subst.
      cbn in H2. destruct H2 as [-> (a' & H2 & ->)]. inversion Sh; subst.
      destruct (IH is_) with (sub := sub) as (A & B & C); auto; [intros; apply Prange; auto; right; auto|].
      assert (R : in_range (nth i p 0%Z) a) by (apply Prange; [left|]; auto).
      cbn. split; [constructor; auto|]. split; [f_equal; auto|]. constructor; auto. unfold in_range, range_size in *. lia. }
  destruct Both as (Bq & Sq & Eq). split; auto. rewrite <- Sq.
  rewrite <- Eb in Bq. rewrite (D q Bq).
  set (mp := combine (en_inds rep) (seq 0 (length (en_inds rep)))) in *.
  set (q0 := map (fun k => match map_find k (rev mp) with Some m => nth m q 0%Z | None => 0%Z end) (seq 0 (S (list_max (en_inds rep))))).
  assert (Q0 : forall k m, map_find k (rev mp) = Some m -> nth k q0 0%Z = nth m q 0%Z).
  { intros k m H. assert (Hk : In k (en_inds rep)) by (apply mapping_find in H; apply (nth_error_In _ _ H)).
    assert (k < S (list_max (en_inds rep))).
    { pose proof (proj1 (list_max_le (en_inds rep) _) (le_n _)) as G. rewrite Forall_forall in G. specialize (G k Hk). lia. }
    unfold q0. apply nth_error_nth. rewrite nth_error_map. rewrite (nth_error_nth' _ 0) by (rewrite seq_length; auto).
    rewrite seq_nth by auto. cbn. rewrite H. auto. }
  rewrite <- (clone_value V M mp q0 q X Q0 (en_call rep) 0 (cs_rhs c) [] Eh).
  unfold paired in Ep. destruct (compare (en_call en) (en_call rep)) as [[p1 q1]|] eqn:Ecmp; [|discriminate].
  symmetry. apply (compare_value V M p q0 X (en_call en) (en_call rep) false p1 q1); auto.
  intros i k Hik. assert (Hps : In (i, k) ps) by (injection Ep as <-; apply in_or_app; auto).
  assert (Hk : In k (en_inds rep)) by (rewrite Eks; apply in_map_iff; exists (i, k); auto).
  destruct (mapping_some (en_inds rep) k Hk) as [m Em]. fold mp in Em. rewrite (Q0 k m Em).
  apply mapping_find in Em.
  destruct (nth_error (en_inds en) m) as [i'|] eqn:Ei'.
  2:{ exfalso. apply nth_error_None in Ei'. apply Forall2_length in Pairs. assert (nth_error (en_inds rep) m <> None) by congruence.
      apply nth_error_Some in H. lia. }
  pose proof (forall2_nth _ _ _ _ _ Pairs m i' k Ei' Em) as Hik'. cbn beta in Hik'.
  assert (i = i').
  { apply (follows_paired (en_call en) (en_call rep) ps i i' k); auto. unfold paired. rewrite Ecmp. auto. }
  subst i'. unfold q. symmetry. apply nth_error_nth. rewrite nth_error_map, Ei'. auto.
Qed.

(** Every element of the new variable has one iteration of its equation. *)
Lemma one_cover : forall idx, element (cs_sizes c) idx ->
  exists q, in_box q (cs_box c) /\ subscripts (cs_lhs c) q = idx /\
    forall q', in_box q' (cs_box c) -> subscripts (cs_lhs c) q' = idx -> q' = q.
Proof.
  intros idx H. destruct emit_parts as (r & box & begins & Er & B & Eb & Es & En & El & Eh & Eu).
  rewrite Eb, El, En. rewrite Es in H.
  assert (S1 : forall q, in_box q box -> subscripts (combine (seq 0 (length (map (fun a => (- rbegin a)%Z) box))) (map (fun a => (- rbegin a)%Z) box)) q =
     map (fun x => (fst x + snd x)%Z) (combine q (map (fun a => (- rbegin a)%Z) box))).
  { intros q Hq. apply subscripts_lhs0. apply Forall2_length in Hq. rewrite map_length. auto. }
  assert (K : exists q, in_box q box /\ map (fun x => (fst x + snd x)%Z) (combine q (map (fun a => (- rbegin a)%Z) box)) = idx /\
     forall q', in_box q' box -> map (fun x => (fst x + snd x)%Z) (combine q' (map (fun a => (- rbegin a)%Z) box)) = idx -> q' = q).
  { clear - H. unfold element in H. revert idx H. induction box as [|a box IH]; intros idx H; cbn in H; inversion H; subst.
    - exists []. split; [constructor|]. split; auto. intros q' Hq. inversion Hq; auto.
    - destruct (IH l' H4) as (q & Q1 & Q2 & Q3). exists ((y + rbegin a)%Z :: q). split; [|split].
      + constructor; auto. unfold in_range, range_size in *. lia.
      + cbn. f_equal; auto. lia.
      + intros q' Hq E. inversion Hq as [|z ? q2 ? Hz Hq2]; subst. cbn in E. injection E as E1 E2. f_equal; [lia|]. apply Q3; auto. }
  destruct K as (q & Q1 & Q2 & Q3). exists q. split; auto. split.
  - rewrite S1; auto.
  - intros q' Hq E. rewrite S1 in E by auto. auto.
Qed.

End ONE.

(** ** The calls of a model *)

Lemma calls_uses : forall e c, In c (calls_of e) -> incl (uses c) (uses e).
Proof.
  assert (HL : forall l, Forall (fun e => forall c, In c (calls_of e) -> incl (uses c) (uses e)) l ->
    forall c, In c (flat_map calls_of l) -> incl (uses c) (flat_map uses l)).
  { intros l H. induction H as [|x l Hx _ IH]; intros c Hc; cbn in Hc; [destruct Hc|].
    apply in_app_or in Hc as [Hc|Hc]; cbn; [apply incl_appl|apply incl_appr]; auto. }
  induction e as [z|x|k|d k|o l IH|f l IH|a l b IH IHb] using xexp_all; intros c Hc; try destruct Hc.
  - apply (HL l IH); auto.
  - cbn in Hc. apply in_app_or in Hc as [Hc|[<-|[]]]; [apply (HL l IH); auto|apply incl_refl].
  - cbn in Hc. cbn. apply in_app_or in Hc as [Hc|Hc]; [apply incl_appl, (HL l IH); auto|apply incl_appr; auto].
Qed.

Lemma in_combine_seq : forall A (l : list A) s n x, In (n, x) (combine (seq s (length l)) l) -> s <= n /\ nth_error l (n - s) = Some x.
Proof.
  intros A l. induction l as [|y l IH]; intros s n x H; cbn in H; [destruct H|]. destruct H as [H|H].
  - injection H as -> ->. rewrite Nat.sub_diag. auto.
  - apply IH in H as [L H]. split; [lia|]. replace (n - s) with (S (n - S s)) by lia. exact H.
Qed.

(** Where an entry comes from. *)
Definition comes (ts : list ctmpl) (en : entry) : Prop :=
  exists t s l, nth_error ts (fst (en_id en)) = Some t /\ ct_spaces t = s :: l /\ same_spaces (s :: l) = true /\
    nth_error (flat_map calls_of (ct_sides t)) (snd (en_id en)) = Some (en_call en) /\
    match en_ranges en with None => s = [] | Some r => In r s end.

Lemma collect_comes : forall ts en, In en (collect_calls ts) -> comes ts en.
Proof.
  intros ts en H. unfold collect_calls in H. apply in_flat_map in H as ([[n t] ro] & H1 & H2).
  unfold template_calls in H2. cbn zeta in H2.
  apply in_map_iff in H2 as ([k c] & <- & H2). cbn [fst snd] in *. unfold get_templates in H1.
  apply in_flat_map in H1 as ([n' t'] & H1 & H3). unfold template_ranges in H3. cbn [snd] in H3.
  apply in_combine_seq in H1 as [_ H1]. rewrite Nat.sub_0_r in H1.
  apply in_combine_seq in H2 as [_ H2]. rewrite Nat.sub_0_r in H2.
  destruct (ct_spaces t') as [|s l] eqn:Es; [destruct H3|].
  destruct (same_spaces (s :: l)) eqn:Ss; [|destruct H3].
  destruct s as [|r0 s].
  - destruct H3 as [H3|[]]. injection H3 as <- <- <-. exists t', [], l. cbn. auto.
  - apply in_map_iff in H3 as (r & H3 & H4). injection H3 as <- <- <-. exists t', (r0 :: s), l. cbn [en_id en_call en_ranges fst snd]. auto.
Qed.

Lemma comes_ranged : forall ts en, inductions_ok ts -> comes ts en -> ranged en.
Proof.
  intros ts en Hi (t & s & l & H1 & H2 & H3 & H4 & H5) k Hk.
  apply nth_error_In in H4. apply in_flat_map in H4 as (e & He & Hc). pose proof (calls_uses e _ Hc k Hk) as Hu.
  destruct (Hi t e k s) as [N K]; auto.
  - apply (nth_error_In _ _ H1).
  - rewrite H2. left. auto.
  - destruct (en_ranges en) as [r|]; [|contradiction]. exists r. auto.
Qed.

Lemma comes_iterates : forall ts en p r, one_range ts -> comes ts en -> iterates ts (en_id en) p ->
  en_ranges en = Some r -> in_box p r.
Proof.
  intros ts en p r Ho (t & s & l & H1 & H2 & H3 & H4 & H5) (t' & s' & K1 & K2 & K3) Er.
  rewrite H1 in K1. injection K1 as <-. rewrite Er in H5.
  assert (It : In t ts) by apply (nth_error_In _ _ H1).
  destruct (Ho t s It) as [L R]; [rewrite H2; left; auto|]. destruct (Ho t s' It K2) as [L' R'].
  assert (Hs : s = [r]).
  { destruct s as [|r1 [|r2 s]]; [destruct H5| |cbn in L; lia]. destruct H5 as [->|[]]; auto. }
  subst s. assert (E : s' = [r] \/ bs_eq [r] s' = true).
  { rewrite H2 in K2. destruct K2 as [<-|K2]; auto. right. cbn in H3. rewrite forallb_forall in H3. auto. }
  assert (B : forall q, in_boxes q [r] <-> in_boxes q s').
  { destruct E as [->|E]; [tauto|]. exact (proj1 (bs_eq_spec _ _) E). }
  destruct s' as [|r' s'].
  - exfalso. inversion R as [|? ? [_ Rr] _]; subst.
    assert (Q : in_boxes (map rbegin r) [r]).
    { exists r. split; [left; auto|]. clear - Rr. induction Rr as [|a r Ha _ IH]; cbn; constructor; auto.
      unfold in_range, range_ok in *. lia. }
    apply B in Q. destruct Q as (b & [] & _).
  - destruct K3 as (r1 & K3 & K4). assert (Q : in_boxes p (r' :: s')) by (exists r1; auto).
    apply B in Q. destruct Q as (b & [<-|[]] & Q). exact Q.
Qed.

Lemma bare_comes : forall ts en l, (forall e, In e l -> comes ts e) -> In (bare en) (map bare l) -> comes ts en.
Proof.
  intros ts en l H K. apply in_map_iff in K as (e & E & K). apply H in K.
  unfold bare in E. injection E as E1 E2 E3. unfold comes in *. rewrite <- E1, <- E2, <- E3. exact K.
Qed.

Lemma fold_emit_inv : forall gs st r, fold_res (fun st g => c <- emit_cse g ;; er <- erase_calls (fst st) g ;; Ok (er, snd st ++ [c])) gs st = Ok r ->
  forall c, In c (snd r) -> In c (snd st) \/ exists g, In g gs /\ emit_cse g = Ok c.
Proof.
  induction gs as [|g gs IH]; intros st r H c Hc; cbn in H.
  - injection H as <-. auto.
  - apply bind_ok in H as (st1 & H1 & H). apply bind_ok in H1 as (c1 & E1 & H1). apply bind_ok in H1 as (er & E2 & H1). injection H1 as <-.
    destruct (IH _ _ H c Hc) as [K|(g' & K1 & K2)].
    + cbn in K. apply in_app_or in K as [K|[<-|[]]]; auto. right. exists g. split; [left|]; auto.
    + right. exists g'. split; [right|]; auto.
Qed.

(** A new variable comes from a group of at least two calls of the model. *)
Lemma call_cse_group : forall ts cs c, inductions_ok ts -> call_cse ts = Ok cs -> In c cs ->
  exists g, group_ok g /\ 2 <= length g /\ emit_cse g = Ok c /\ forall en, In en g -> comes ts en.
Proof.
  intros ts cs c Hi E Hc. unfold call_cse in E. apply bind_ok in E as (gs & E1 & E). apply bind_ok in E as (r & E2 & E). injection E as <-.
  destruct (build_groups_from (collect_calls ts) []) as (gs' & E3 & G & P).
  { apply Forall_forall. intros en He. apply (comes_ranged ts); auto. apply collect_comes; auto. }
  { constructor. }
  unfold build_groups in E1. rewrite E1 in E3. injection E3 as <-.
  destruct (fold_emit_inv _ _ _ E2 c Hc) as [[]|(g & H1 & H2)].
  apply filter_In in H1 as [H1 H3]. apply Nat.leb_le in H3. rewrite Forall_forall in G.
  exists g. split; [auto|]. split; [auto|]. split; [auto|]. intros en He.
  apply (bare_comes ts en (collect_calls ts)); [apply collect_comes|].
  cbn in P. rewrite app_nil_r in P. apply (Permutation_in _ P). apply in_map. apply in_concat. eauto.
Qed.

(** ** Success *)

Lemma emit_ok : forall g rep rest, g = rep :: rest -> group_ok g -> plain false (en_call rep) = true -> exists c, emit_cse g = Ok c.
Proof.
  intros g rep rest Eg (rep' & rest' & ps0 & Eg' & E0 & I0 & Fi & Ra) P. rewrite Eg in Eg'. injection Eg' as <- <-. subst g.
  assert (HR : forall en, In en (rep :: rest) -> forall k, In k (en_inds en) -> In k (uses (en_call en))).
  { intros en He k Hk. rewrite Forall_forall in Fi. destruct (Fi en He) as (ps & Ep & Ei & _). rewrite Ei in Hk.
    unfold order_inds in Hk. apply in_flat_map in Hk as (k' & _ & Hk).
    destruct (find _ ps) as [[i j]|] eqn:E; [|destruct Hk]. apply find_some in E as [E _]. destruct Hk as [<-|[]].
    apply (paired_uses _ _ _ _ _ Ep E). }
  rewrite Forall_forall in Ra.
  assert (HE : forall en, In en (rep :: rest) -> exists r, entry_ranges en = Ok r /\ forall k, In k (en_inds en) -> k < length r).
  { intros en He. unfold entry_ranges. destruct (en_inds en) as [|k0 l] eqn:E; [exists []; split; auto; intros k []|].
    destruct (Ra en He k0) as (r & Er & L); [apply HR; auto; rewrite E; left; auto|]. rewrite Er. cbn. exists r. split; auto.
    intros k Hk. destruct (Ra en He k) as (r' & Er' & L'); [apply HR; auto; rewrite E; auto|]. rewrite Er in Er'. injection Er' as <-. auto. }
  assert (HS : forall r l, (forall k, In k l -> k < length r) -> exists s, shift r l = Ok s).
  { intros r l H. apply map_res_all. intros k Hk. specialize (H k Hk). destruct (nth_error r k) as [a|] eqn:E; [cbn; eauto|].
    apply nth_error_None in E. lia. }
  cbn [emit_cse]. destruct (HE rep) as (r & Er & Lr); [left; auto|]. rewrite Er. cbn [bind].
  destruct (map_res_all _ _ (fun k => of_option (nth_error r k)) (en_inds rep)) as [box Eb].
  { intros k Hk. specialize (Lr k Hk). destruct (nth_error r k) as [a|] eqn:E; [cbn; eauto|]. apply nth_error_None in E. lia. }
  rewrite Eb. cbn [bind]. destruct (HS r (en_inds rep) Lr) as [sh Es]. rewrite Es. cbn [bind].
  destruct (clone_ok (combine (en_inds rep) (seq 0 (length (en_inds rep)))) (en_call rep) 0 false) as [rhs Eh]; auto; [discriminate| |].
  { intros k Hk. apply mapping_some. rewrite I0. destruct (uses_paired _ _ _ k E0 Hk) as [i H]. apply in_map_iff. exists (i, k). auto. }
  rewrite Eh. cbn [bind].
  destruct (map_res_all _ _ (fun c => rc <- entry_ranges c ;; l <- shift rc (en_inds c) ;; Ok (c, l)) (rep :: rest)) as [us Eu].
  { intros en He. destruct (HE en He) as (rc & Erc & Lc). rewrite Erc. cbn [bind]. destruct (HS rc (en_inds en) Lc) as [s E]. rewrite E. cbn. eauto. }
  rewrite Eu. cbn. eauto.
Qed.

Lemma erase_ok : forall g er, NoDup (map en_id g) -> (forall c, In c g -> ~ In (en_id c) er) ->
  exists er', erase_calls er g = Ok er' /\ forall i, In i er' <-> In i er \/ In i (map en_id g).
Proof.
  induction g as [|c g IH]; intros er N D; cbn.
  - exists er. split; auto. tauto.
  - cbn in N. inversion N as [|? ? N1 N2]; subst.
    assert (E : existsb (id_eqb (en_id c)) er = false).
    { apply not_true_is_false. intros K. apply existsb_exists in K as (i & K1 & K2).
      unfold id_eqb in K2. apply andb_true_iff in K2 as [K2 K3]. apply Nat.eqb_eq in K2. apply Nat.eqb_eq in K3.
      apply (D c); [left; auto|]. destruct (en_id c), i. cbn in *. subst. auto. }
    rewrite E. cbn. destruct (IH (en_id c :: er) N2) as (er' & E' & K).
    { intros c' Hc' [K|K]; [apply N1; rewrite K; apply in_map; auto|]. apply (D c'); [right|]; auto. }
    exists er'. split; auto. intros i. rewrite K. cbn. tauto.
Qed.

Lemma fold_emit_ok : forall gs st, NoDup (map en_id (concat gs)) -> (forall c, In c (concat gs) -> ~ In (en_id c) (fst st)) ->
  (forall g, In g gs -> exists c, emit_cse g = Ok c) ->
  exists r, fold_res (fun st g => c <- emit_cse g ;; er <- erase_calls (fst st) g ;; Ok (er, snd st ++ [c])) gs st = Ok r.
Proof.
  induction gs as [|g gs IH]; intros st N D H; cbn; [eauto|].
  destruct (H g (or_introl eq_refl)) as [c E]. rewrite E. cbn [bind].
  cbn in N, D. rewrite map_app in N.
  assert (Ng : NoDup (map en_id g)) by (clear - N; induction (map en_id g) as [|x l IHl]; [constructor|]; cbn in N; inversion N as [|? ? N1 N2]; subst; constructor; auto; intros K; apply N1; apply in_or_app; auto).
  destruct (erase_ok g (fst st) Ng) as (er & Ee & Ke); [intros c' Hc'; apply D; apply in_or_app; auto|].
  rewrite Ee. cbn [bind]. apply IH.
  - clear - N. induction (map en_id g) as [|x l IHl]; auto. cbn in N. inversion N; auto.
  - cbn. intros c' Hc' K. apply Ke in K as [K|K].
    + apply (D c'); auto. apply in_or_app. auto.
    + clear - N K Hc'. induction (map en_id g) as [|x l IHl]; [destruct K|]. cbn in N. inversion N as [|? ? N1 N2]; subst.
      destruct K as [->|K]; [|auto]. apply N1. apply in_or_app. right. apply in_map. auto.
  - intros g' Hg'. apply H. right. auto.
Qed.

Lemma nodup_collect : forall ts, one_range ts -> NoDup (map en_id (collect_calls ts)).
Proof.
  intros ts Ho.
  assert (NS : forall (l : list xexp) (n s : nat), NoDup (map (fun nc : nat * xexp => (n, fst nc)) (combine (seq s (length l)) l))).
  { induction l as [|x l IH]; intros n s; cbn; constructor; auto. intros K. apply in_map_iff in K as ([k y] & E & K).
    cbn in E. injection E as ->. apply in_combine_seq in K as [K _]. lia. }
  assert (Hd : forall n t, (forall sp, In sp (ct_spaces t) -> length sp <= 1) ->
    NoDup (map en_id (flat_map template_calls (template_ranges (n, t)))) /\
    forall i, In i (map en_id (flat_map template_calls (template_ranges (n, t)))) -> fst i = n).
  { intros n t L.
    assert (One : forall ro, NoDup (map en_id (template_calls (n, t, ro))) /\ forall i, In i (map en_id (template_calls (n, t, ro))) -> fst i = n).
    { intros ro. unfold template_calls. cbn zeta. cbn [fst snd]. rewrite map_map. cbn [en_id]. split; [apply NS|].
      intros i K. apply in_map_iff in K as (nc & <- & _). auto. }
    unfold template_ranges. cbn [snd]. destruct (ct_spaces t) as [|s0 l] eqn:Es; [cbn; split; [constructor|intros i []]|].
    destruct (same_spaces (s0 :: l)); [|cbn; split; [constructor|intros i []]].
    specialize (L s0 (or_introl eq_refl)).
    destruct s0 as [|r [|r2 s0]]; [| |cbn in L; lia]; cbn [map flat_map]; rewrite app_nil_r; apply One. }
  assert (G : forall ts s, (forall t sp, In t ts -> In sp (ct_spaces t) -> length sp <= 1) ->
    let e := map en_id (flat_map template_calls (flat_map template_ranges (combine (seq s (length ts)) ts))) in
    NoDup e /\ forall i, In i e -> s <= fst i).
  { clear ts Ho. induction ts as [|t ts IH]; intros s Ho; cbn zeta.
    - cbn. split; [constructor|intros i []].
    - cbn [length seq combine flat_map].
      destruct (IH (S s)) as [I1 I2]; [intros; eapply Ho; eauto; right; auto|]. cbn zeta in I1, I2.
      rewrite flat_map_app, map_app.
      destruct (Hd s t) as [N F]; [intros; apply (Ho t); auto; left; auto|].
      set (hd := map en_id (flat_map template_calls (template_ranges (s, t)))) in *. split.
      + clear - N F I1 I2. induction N as [|x l Hx N IH]; cbn; auto. constructor.
        * intros K. apply in_app_or in K as [K|K]; auto. apply I2 in K. rewrite (F x) in K by (left; auto). lia.
        * apply IH. intros i Hi. apply F. right. auto.
      + intros i K. apply in_app_or in K as [K|K]; [rewrite (F i K); auto|]. apply I2 in K. lia. }
  apply (G ts 0). intros t sp Ht Hs. apply (Ho t sp Ht Hs).
Qed.

Lemma call_cse_ok : forall ts, inductions_ok ts -> one_range ts ->
  (forall t e c, In t ts -> In e (ct_sides t) -> In c (calls_of e) -> plain false c = true) ->
  exists cs, call_cse ts = Ok cs.
Proof.
  intros ts Hi Ho Hp. unfold call_cse.
  destruct (build_groups_from (collect_calls ts) []) as (gs & E & G & P).
  { apply Forall_forall. intros en He. apply (comes_ranged ts); auto. apply collect_comes; auto. }
  { constructor. }
  unfold build_groups. rewrite E. cbn [bind]. cbn in P. rewrite app_nil_r in P.
  assert (NI : NoDup (map en_id (concat gs))).
  { apply (Permutation_NoDup (l := map en_id (collect_calls ts))); [|apply nodup_collect; auto].
    apply Permutation_sym. apply (Permutation_map (fun b => fst (fst b))) in P. rewrite !map_map in P. exact P. }
  destruct (fold_emit_ok (filter (fun g => 2 <=? length g) gs) ([], [])) as [r Er].
  - clear - NI. induction gs as [|g gs IH]; [constructor|]. cbn [concat filter] in *. rewrite map_app in NI.
    assert (N2 : NoDup (map en_id (concat gs))).
    { clear - NI. induction (map en_id g) as [|x l IHl]; auto. cbn in NI. inversion NI; auto. }
    destruct (2 <=? length g); auto. cbn [concat]. rewrite map_app. specialize (IH N2).
    induction (map en_id g) as [|x l IHl]; auto. cbn in *. inversion NI as [|? ? N3 N4]; subst. constructor; auto.
    intros K. apply N3. apply in_app_or in K as [K|K]; apply in_or_app; auto. right.
    apply in_map_iff in K as (c & E & K). apply in_map_iff. exists c. split; auto.
    apply in_concat in K as (g' & K1 & K2). apply filter_In in K1 as [K1 _]. apply in_concat. eauto.
  - intros c _ [].
  - intros g Hg. apply filter_In in Hg as [Hg _]. rewrite Forall_forall in G. pose proof (G g Hg) as Gg.
    destruct Gg as (rep & rest & ps & -> & Gg). apply (emit_ok (rep :: rest) rep rest eq_refl (G _ Hg)).
    assert (C : comes ts rep).
    { apply (bare_comes ts rep (collect_calls ts)); [apply collect_comes|]. apply (Permutation_in _ P). apply in_map.
      apply in_concat. exists (rep :: rest). split; auto. left. auto. }
    destruct C as (t & s & l & C1 & C2 & C3 & C4 & C5). apply nth_error_In in C4. apply in_flat_map in C4 as (e & He & Hc).
    apply (Hp t e); auto. apply (nth_error_In _ _ C1).
  - rewrite Er. cbn. eauto.
Qed.
