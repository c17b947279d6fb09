(** Using a TracerTofSolver: construction from a flow network, and sequences of
    solves on the same object. *)
From Verif.Model Require Import Base Num OMap Containers AssembledConnections TracerTofSolver.
From Verif.Spec Require Export FlowSpec ToolboxSpec.
Open Scope Z_scope.

Section spec.
Context {N : Num}.

(** [g] results from adding the connections to a new graph and compressing it. *)
Definition assembled (n : Z) (l : list arc) (g : aconn) : Prop :=
  ac_compress (foldl (λ g (x : arc), ac_add_w g x.1.1 x.1.2 x.2) ac_new l) n = Ok (g, None).

(** A solver for the network [A] on [n] cells. *)
Record new_solver (n : Z) (A : list arc) (pv : list num) (src : cellset_values) (s : tts) (d : tdyn) : Prop := {
  ns_n : 0 ≤ n < 2 ^ 31;
  ns_arcs : arcs_ok n A;
  ns_pv : zlen pv = n;
  ns_src : map_ok src ∧ ∀ c, c ∈ map fst src → 0 ≤ c < n;
  ns_make : ∃ g rev, assembled n A g ∧ assembled n (turn A) rev ∧ tts_make g rev pv src = Ok (s, d)
}.

(** Solves, each with the memory and the sweep budget it happens to have. *)
Inductive solve_call :=
  | SolveGlobal (h : heap) (fuel : nat)
  | SolveLocal (h : heap) (fuel : nat) (startset : cellset_values).
Definition call_ok (n : Z) (c : solve_call) : Prop :=
  match c with
  | SolveGlobal _ _ => True
  | SolveLocal _ _ ss => map_ok ss ∧ ∀ c, c ∈ map fst ss → 0 ≤ c < n
  end.
(** What a solve returns: a time-of-flight array, or a time-of-flight and a
    concentration map, or an exception. *)
Definition answer : Type := (list num + cellset_values * cellset_values) + exn.
Definition do_solve (s : tts) (d : tdyn) (c : solve_call) : res (tdyn * answer) :=
  match c with
  | SolveGlobal h fuel =>
      r ← solve_global h fuel s d;
      Ok (r.1, match r.2 with inl t => inl (inl t) | inr e => inr e end)
  | SolveLocal h fuel ss =>
      r ← solve_local h fuel s d ss;
      Ok (r.1, match r.2 with inl x => inl (inr x) | inr e => inr e end)
  end.
(** The state after some solves; exceptions do not end the sequence. *)
Definition after (s : tts) (d : tdyn) (cs : list solve_call) : res tdyn :=
  foldM (λ d c, r ← do_solve s d c; Ok r.1) d cs.
(** Memory that does not run out. *)
Definition memory_ok (h : heap) : Prop := ∀ i, h_ok h i = true.
(** What a solve returns in a given state. *)
Definition answers (s : tts) (d : tdyn) (c : solve_call) : res answer :=
  r ← do_solve s d c; Ok r.2.
End spec.

(** Inflow only, at rates within the source terms, and volumes that are not
    negative. *)
Record solver_data (A : list (@arc exact)) (pv : list (@num exact)) (src ss : @cellset_values exact) : Prop := {
  sd_arcs : ∀ a, a ∈ A → finite a.2 ∧ nltb n0 a.2 = true;
  sd_src : ∀ c x, (c, x) ∈ src → finite x ∧ nleb n0 x = true;
  sd_start : ∀ c x, (c, x) ∈ ss → finite x ∧ nltb n0 x = true ∧ nleb x (value_at src c) = true;
  sd_pv : ∀ x, x ∈ pv → finite x ∧ nleb n0 x = true
}.
