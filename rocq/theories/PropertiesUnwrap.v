(** Property C119: calls run the function they name. *)

From Coq Require Import List Arith Bool String Lia.
From Verif Require Import UnwrapModel UnwrapSpec UnwrapProofs.
Import ListNotations.
Local Open Scope nat_scope.

(** ** C119. The functions are moved out of their packages and renamed; every
    call, in the models and in the functions, runs the function that it ran
    before, whatever names the classes have. *)
Theorem C119_calls : forall p, well_named p ->
  exists q, passes p = Some q /\
  List.length (p_funcs q) = List.length (p_funcs p) /\
  Forall2 (same_target p q) (p_calls p) (p_calls q) /\
  forall k f, nth_error (p_funcs p) k = Some f ->
    exists g, nth_error (p_funcs q) k = Some g /\ (exists n, f_path g = [n]) /\
      f_rank g = f_rank f /\ Forall2 (same_target p q) (f_calls f) (f_calls g).
Proof.
  intros p ok. destruct (names_ok p ok) as (ns & Hn & HF & ND). exists (q p ns).
  split; [now apply passes_q|]. split; [now apply q_length|].
  assert (X : forall cs, Forall2 (same_target p (q p ns)) cs
    (map (fun c => mangle_call (unwrap_call (combine (p_funcs p) ns) c)) cs)).
  { induction cs as [|c cs IH]; constructor; auto. now apply call_runs. }
  split.
  - cbn. rewrite map_map. apply X.
  - intros k f Hf. destruct (q_funcs p ns HF k f Hf) as (g & Hg & Hp & Hr & _ & Hc).
    exists g. split; auto. split; auto. split; auto. rewrite Hc. apply X.
Qed.
Print Assumptions C119_calls.

(** Every function has a name of its own, and one that no class has unless a
    class has a name that begins with "_M". *)
Theorem C119_distinct : forall p q, well_named p -> passes p = Some q ->
  NoDup (map f_path (p_funcs q)) /\ p_others q = p_others p /\
  ((forall s, ~ In ("_M" ++ s)%string (p_others p)) ->
   forall f n, In f (p_funcs q) -> f_path f = [n] -> ~ In n (p_others q)).
Proof.
  intros p q' ok Hq. destruct (names_ok p ok) as (ns & Hn & HF & ND).
  rewrite (passes_q p ns Hn) in Hq. injection Hq as <-. split; [now apply q_nodup|]. split; [reflexivity|].
  intros N f n Hf E. apply (in_map f_path) in Hf. rewrite (q_paths p ns HF), E in Hf.
  apply in_map_iff in Hf as (m & Hm & _). injection Hm as <-. apply N.
Qed.
Print Assumptions C119_distinct.

(** The result of a call keeps its dimensions when the call does not run the
    function for each element. Missing in the partial theorem: those that do. *)
Theorem C119_results_partial : forall p q, well_named p -> passes p = Some q ->
  forall i c k f, nth_error (p_calls p) i = Some c -> runs p c k -> nth_error (p_funcs p) k = Some f ->
  c_rank c = f_rank f ->
  exists c', nth_error (p_calls q) i = Some c' /\ runs q c' k /\ c_rank c' = c_rank c.
Proof.
  intros p q' ok Hq i c k f Hc Hr Hf E. destruct (names_ok p ok) as (ns & Hn & HF & ND).
  rewrite (passes_q p ns Hn) in Hq. injection Hq as <-.
  exists (mangle_call (unwrap_call (combine (p_funcs p) ns) c)). split; [|split].
  - cbn. rewrite map_map, nth_error_map, Hc. reflexivity.
  - now apply call_runs.
  - destruct Hr as [(g & Hg & Eg) _]. rewrite Hf in Hg. injection Hg as <-.
    destruct (call_target p ok ns HF c k f Hf Eg) as (n & _ & _ & ->). destruct (nested (f_path f)); auto.
Qed.
Print Assumptions C119_results_partial.

(** The same for the calls in the functions. *)
Theorem C119_inner_results_partial : forall p q, well_named p -> passes p = Some q ->
  forall j h i c k f, nth_error (p_funcs p) j = Some h -> nth_error (f_calls h) i = Some c ->
  runs p c k -> nth_error (p_funcs p) k = Some f -> c_rank c = f_rank f ->
  exists h' c', nth_error (p_funcs q) j = Some h' /\ nth_error (f_calls h') i = Some c' /\
    runs q c' k /\ c_rank c' = c_rank c.
Proof.
  intros p q' ok Hq j h i c k f Hh Hc Hr Hf E. destruct (names_ok p ok) as (ns & Hn & HF & ND).
  rewrite (passes_q p ns Hn) in Hq. injection Hq as <-.
  destruct (q_funcs p ns HF j h Hh) as (g & Hg & _ & _ & _ & Hgc).
  exists g, (mangle_call (unwrap_call (combine (p_funcs p) ns) c)). split; auto. split; [|split].
  - rewrite Hgc, nth_error_map, Hc. reflexivity.
  - now apply call_runs.
  - destruct Hr as [(f' & Hf' & Ef) _]. rewrite Hf in Hf'. injection Hf' as <-.
    destruct (call_target p ok ns HF c k f Hf Ef) as (n & _ & _ & ->). destruct (nested (f_path f)); auto.
Qed.
Print Assumptions C119_inner_results_partial.

(** A call for each element of an array, of a function in a package, gets the
    scalar result of the function. *)
Theorem C119_elementwise_refuted : exists p q c c', well_named p /\ passes p = Some q /\
  p_calls p = [c] /\ p_calls q = [c'] /\ runs p c 0 /\ runs q c' 0 /\ c_rank c = 1 /\ c_rank c' = 0.
Proof.
  exists (mkProg [mkFunc ["P"; "f"]%string false 0 []] ["P"; "M"]%string [mkCall ["P"; "f"]%string 1]).
  eexists. eexists. eexists. split.
  { repeat split; try (repeat constructor; cbn; intuition discriminate).
    intros f n [<-|[]] H. discriminate. }
  split; [vm_compute; reflexivity|]. split; [reflexivity|]. split; [reflexivity|].
  repeat split; try (eexists; split; reflexivity); intros [|[|j]] g Hg _; auto; discriminate.
Qed.
Print Assumptions C119_elementwise_refuted.

(** A function in a package loses its annotation to be inlined. *)
Theorem C119_inline_refuted : exists p q f g, well_named p /\ passes p = Some q /\
  p_funcs p = [f] /\ p_funcs q = [g] /\ f_inline f = true /\ f_inline g = false.
Proof.
  exists (mkProg [mkFunc ["P"; "f"]%string true 0 []] ["P"]%string []).
  eexists. eexists. eexists. split.
  { repeat split; try (repeat constructor; cbn; intuition discriminate).
    intros f n [<-|[]] H. discriminate. }
  split; [vm_compute; reflexivity|]. repeat split; reflexivity.
Qed.
Print Assumptions C119_inline_refuted.

(** The mangled name may be that of another class: nothing checks it. *)
Theorem C119_clash_refuted : exists p q f n, well_named p /\ passes p = Some q /\
  In f (p_funcs q) /\ f_path f = [n] /\ In n (p_others q).
Proof.
  exists (mkProg [mkFunc ["f"]%string true 0 []] ["_Mf"]%string []).
  eexists. eexists. eexists. split.
  { repeat split; try (repeat constructor; cbn; intuition discriminate).
    intros f n [<-|[]] H. injection H as <-. cbn. intuition discriminate. }
  split; [vm_compute; reflexivity|]. split; [now left|]. split; [reflexivity|]. now left.
Qed.
Print Assumptions C119_clash_refuted.

(** Two packages whose functions get the same joined name, and a function at the
    top that has it already. *)
Definition case_prog : program :=
  mkProg [mkFunc ["A_b"; "f"]%string false 0 [mkCall ["A"; "b_f"]%string 0];
          mkFunc ["A"; "b_f"]%string false 0 [mkCall ["A_b_f"]%string 0];
          mkFunc ["A_b_f"]%string true 0 []]
    ["A"; "A_b"; "M"]%string [mkCall ["A_b"; "f"]%string 0; mkCall ["A_b_f"]%string 2].
Example C119_case : well_named case_prog /\ runs case_prog (mkCall ["A"; "b_f"]%string 0) 1 /\
  passes case_prog = Some
    (mkProg [mkFunc ["_MA_b_f_0"]%string false 0 [mkCall ["_MA_b_f_1"]%string 0];
             mkFunc ["_MA_b_f_1"]%string false 0 [mkCall ["_MA_b_f"]%string 0];
             mkFunc ["_MA_b_f"]%string true 0 []]
       ["A"; "A_b"; "M"]%string [mkCall ["_MA_b_f_0"]%string 0; mkCall ["_MA_b_f"]%string 2]).
Proof.
  split; [|split].
  - repeat split; try (repeat constructor; cbn; intuition discriminate).
    intros f n [<-|[<-|[<-|[]]]] H; try discriminate. injection H as <-. cbn. intuition discriminate.
  - split; [eexists; split; reflexivity|]. intros [|[|[|[|j]]]] g Hg E; cbn in *; auto; try discriminate Hg; injection Hg as <-; discriminate.
  - vm_compute. reflexivity.
Qed.
