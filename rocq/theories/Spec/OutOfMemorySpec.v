(** What a client that survives std::bad_alloc can rely on. *)
From Verif.Model Require Import Base Num OMap Containers AssembledConnections Toolbox OutOfMemory.
From Verif.Spec Require Import GraphSpec ToolboxSpec DefinedSpec.
Open Scope Z_scope.

Section spec.
Context {N : Num}.

(** The calls that had enough memory, and what they returned. *)
Definition enough (cs : list mcall) : list tb_call :=
  omap (λ c, match c with Enough c => Some c | _ => None end) cs.
Definition enough_obs (cs : list mcall) (os : list mobs) : list tb_obs :=
  omap (λ p, match p with (Enough _, Seen o) => Some o | _ => None end) (zip cs os).

(** The call computes something, in this direction. *)
Definition computes (d : direction) (c : mcall) : Prop :=
  match d, c with
  | Injection, (Enough (CInject _ _) | FailInject _ _) => True
  | Production, (Enough (CProduce _ _) | FailProduce _ _) => True
  | _, _ => False
  end.

(** The attempts to give the toolbox an input of the right size: did it take it (true)
    or did it run out of memory (false)? *)
Definition tried_pv (g : cgraph) (c : mcall) : option bool :=
  match c with
  | Enough (CPoreVolume pv) => if decide (zlen pv = cg_num_cells g) then Some true else None
  | FailPoreVolume pv _ => if decide (zlen pv = cg_num_cells g) then Some false else None
  | _ => None
  end.
Definition tried_flux (g : cgraph) (c : mcall) : option bool :=
  match c with
  | Enough (CFlux f) => if decide (cv_num_connections f = cg_num_connections g) then Some true else None
  | FailFlux f _ => if decide (cv_num_connections f = cg_num_connections g) then Some false else None
  | _ => None
  end.
Definition tried_rates (c : mcall) : option bool :=
  match c with Enough (CInflow _) => Some true | FailInflow _ _ => Some false | _ => None end.

(** None of the three inputs was last given in vain. *)
Definition intact (g : cgraph) (cs : list mcall) : Prop :=
  last (omap (tried_pv g) cs) ≠ Some false ∧
  last (omap (tried_flux g) cs) ≠ Some false ∧
  last (omap tried_rates cs) ≠ Some false.
(** The client gives an input again, until it is taken, before computing anything. *)
Definition repaired (g : cgraph) (cs : list mcall) : Prop :=
  ∀ cs1 d c cs2, cs = cs1 ++ c :: cs2 → computes d c → intact g cs1.

(** The arguments of the calls are sound (see [call_ok]); those of the assignments that
    fail may be anything. *)
Definition mcall_ok (c : mcall) : Prop :=
  match c with
  | Enough c => call_ok c
  | FailInject (AtSolve ev) _ | FailProduce (AtSolve ev) _ => alloc_ok ev
  | _ => True
  end.
Definition wells_within_enough (g : cgraph) (cs : list mcall) : Prop :=
  ∀ cs1 d c cs2, cs = cs1 ++ c :: cs2 → computes d c → wells_within d g (rates_after (enough cs1)).

(** What the last of a sequence of calls returns. *)
Definition m_returns (g : cgraph) (cs : list mcall) (c : tb_call) : res tb_obs :=
  r ← m_run (tb_new g) cs; r' ← tb_step r.1 c; Ok r'.2.

(** ** Graphs under assembly *)
(** Connections added to a graph: with success, or with too little memory. *)
Inductive attempt := Added (x : connection) | Lost (i j : Z) (w : add_oom).
Definition attempt_add (g : aconn) (a : attempt) : aconn :=
  match a with
  | Added (i, j, None) => ac_add g i j
  | Added (i, j, Some w) => ac_add_w g i j w
  | Lost i j w => ac_add_w_fail g i j w
  end.
Definition attempts (g : aconn) (l : list attempt) : aconn := foldl attempt_add g l.
(** Something with a weight, something without one. *)
Definition has_weight (a : attempt) : Prop := match a with Added (_, Some _) => True | _ => False end.
Definition has_none (a : attempt) : Prop := match a with Added (_, None) | Lost _ _ AtV => True | _ => False end.
Definition torn (a : attempt) : Prop := match a with Lost _ _ AtJ => True | _ => False end.
End spec.
