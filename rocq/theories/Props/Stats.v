(** Property C69: opm/flowdiagnostics/TracerTofSolver.cpp, the statistics counters
    num_multicell_, max_size_multicell_ and max_iter_multicell_. *)
From Coq Require Import QArith Qcanon String.
From Verif.Model Require Import Base Num OMap Containers Solution AssembledConnections Tarjan TracerTofSolver Toolbox SolverStats.
From Verif.Spec Require Import ContainerSpec ToolboxSpec MirrorSpec StatsSpec.
From Verif.Proofs Require Import Util ContainerProps OrdLaws B64Laws ToolboxPose Stats.
From Verif.Props Require Import Toolbox SameFlow Endless Slow.
Open Scope Z_scope.

(** The outcome with counters is the outcome without, up to the largest number of
    sweeps an int can count.  A component that needs more sweeps is undefined behaviour. *)
Theorem C69_counters {N : Num} p g f d ev sets : valid p → poses p g f →
  diagnose_c d ev g p f sets =
  match diagnose d (counted_env ev) g p f sets with
  | NoFuel => if decide (e_fuel ev ≤ int_sweeps)%nat then NoFuel else UB
  | x => x
  end.
Proof. intros Hp HP. by apply diagnose_counted. Qed.

(** Whatever happens within that many sweeps happens with the counters as well,
    and does not depend on the budget. *)
Theorem C69_returns {N : Num} p g f d h k sets : valid p → poses p g f → (k ≤ int_sweeps)%nat →
  diagnose d (mkEnv h k) g p f sets ≠ NoFuel → ∀ k', (k ≤ k')%nat →
  diagnose_c d (mkEnv h k') g p f sets = diagnose d (mkEnv h k) g p f sets ∧
  diagnose d (mkEnv h k') g p f sets = diagnose d (mkEnv h k) g p f sets.
Proof.
  intros Hp HP Hk Hne k' Hk'. split; [|by apply more_diagnose]. rewrite C69_counters by done. unfold counted_env. cbn [e_heap e_fuel].
  rewrite (more_diagnose h k (Nat.min k' int_sweeps)) by (done || lia).
  by destruct (diagnose d (mkEnv h k) g p f sets).
Qed.

(** No cycle, no counting. *)
Theorem C69_no_cycles {N : Num} p g f d ev sets : valid p → poses p g f →
  (∀ u v, leads (flow d p) u v → leads (flow d p) v u → u = v) → diagnose_c d ev g p f sets = diagnose d ev g p f sets.
Proof.
  intros Hp HP Hc. destruct ev as [h k].
  pose proof (C62_no_cycles p g f d (mkEnv h 0) sets Hp HP Hc) as H0.
  destruct (C69_returns p g f d h 0 sets Hp HP ltac:(lia) H0 k ltac:(lia)) as [-> ->]. done.
Qed.

(** Every sequence of calls to a toolbox in any state. *)
Theorem C69_programs {N : Num} t cs : Forall (λ c, match c with CInject ev _ | CProduce ev _ => (e_fuel ev ≤ int_sweeps)%nat | _ => True end) cs →
  tb_run_c t cs = tb_run t cs.
Proof. intros H. apply same_run. eapply Forall_impl; [exact H|]. intros [] ?; cbn; (done || lia). Qed.

(** Counting overflows, even for a network of two cells with integer data whose fluxes are in
    balance and for which enough sweeps exist. *)
Theorem C69_overflow : ∃ (p : @problem exact) g f, valid p ∧ poses p g f ∧ data is_int p ∧ pores_ok p ∧ conserves p ∧
  pb_cells p = 2 ∧ ∀ ev sets, alloc_ok ev → sets_ok Injection p sets → (int_sweeps < e_fuel ev)%nat →
  diagnose_c Injection ev g p f sets = UB.
Proof.
  destruct (C64_sweeps_unbounded int_sweeps) as (p & g & f & Hp & HP & H3 & H4 & H5 & H6 & _ & H & _).
  exists p, g, f. split_and!; try done. intros ev sets Ha Hs Hf. rewrite C69_counters by done.
  rewrite H; [by rewrite decide_False by lia|done|done|]. unfold counted_env. cbn [e_fuel]. lia.
Qed.
(** In double precision: no budget is large enough, and every sufficiently large one overflows. *)
Theorem C69_overflow_b64 : ∃ (p : @problem b64) g f id, valid p ∧ poses p g f ∧ @data b64 b64_ok p ∧ pores_ok p ∧
  no_overflow Injection p ∧ conserves p ∧ sets_ok Injection p [cs_make id [0]] ∧
  ∀ ev st sets, alloc_ok ev → cs_id st = id → sets_ok Injection p (st :: sets) → (int_sweeps < e_fuel ev)%nat →
  diagnose_c Injection ev g p f (st :: sets) = UB.
Proof.
  destruct C62_endless_b64 as (p & g & f & id & Hp & HP & H3 & H4 & H5 & H6 & H7 & H).
  exists p, g, f, id. split_and!; try done. intros ev st sets Ha Hid Hs Hf. rewrite C69_counters by done.
  rewrite H; [by rewrite decide_False by lia|done|done|done].
Qed.

(** A cyclic problem that 100 sweeps solve, with and without counters, whatever the budget. *)
Lemma few_sweeps : (100 ≤ int_sweeps)%nat.
Proof. apply Nat2Z.inj_le. rewrite int_sweeps_Z. lia. Qed.
Lemma solution_of {N : Num} (x : res tb_obs) : match x with Ok (OSol _) => true | _ => false end = true → ∃ sol, x = Ok (OSol sol).
Proof. destruct x as [[]| | | |]; try done. by eexists. Qed.
Example C69_ex : ∃ sol, ∀ k, (100 ≤ k)%nat →
  diagnose_c Injection (mkEnv (e_heap ex_ev) k) (graph_for (@cy_p b64)) (@cy_p b64) (values_for (@cy_p b64) 1) [cs_make "I"%string [0]] = Ok (OSol sol).
Proof.
  destruct (solution_of (diagnose Injection (mkEnv (e_heap ex_ev) 100) (graph_for (@cy_p b64)) (@cy_p b64) (values_for (@cy_p b64) 1)
    [cs_make "I"%string [0]])) as [sol E]; [vm_compute; reflexivity|].
  exists sol. intros k Hk. rewrite <-E. refine (proj1 (C69_returns _ _ _ _ _ _ _ cy_valid cy_poses few_sweeps _ k Hk)). rewrite E. discriminate.
Qed.

Print Assumptions C69_counters.
Print Assumptions C69_returns.
Print Assumptions C69_no_cycles.
Print Assumptions C69_programs.
Print Assumptions C69_overflow.
Print Assumptions C69_overflow_b64.
