(** Property C93: producers have no influence on injection diagnostics, nor
    injectors on production diagnostics. Toolbox.cpp and TracerTofSolver.cpp. *)
From Coq Require Import String QArith Qcanon.
From Verif.Model Require Import Base Num OMap Containers Solution AssembledConnections Tarjan TracerTofSolver Toolbox.
From Verif.Spec Require Import ToolboxSpec OneSidedSpec.
From Verif.Proofs Require Import OMapFacts ExactNum OrdLaws SameFlow OneSided.
From Verif.Props Require Import Toolbox.
Open Scope Z_scope.

(** Problems that agree in the direction have the same outcome, be it a result or
    an exception, in any arithmetic and with cycles. *)
Theorem C93_same_side {N : Num} p p' g g' f f' d ev sets : valid p → poses p g f → valid p' → poses p' g' f' → same_side d p p' →
  diagnose d ev g p f sets = diagnose d ev g' p' f' sets.
Proof. exact (diagnose_side p p' g g' f f' d ev sets). Qed.
(** In particular all rates of the opposite sign, and rates that are zero or NaN,
    can be left out. *)
Theorem C93_left_out {N : Num} p g f d ev sets : valid p → poses p g f →
  valid (stripped d p) ∧ poses (stripped d p) g f ∧ diagnose d ev g p f sets = diagnose d ev g (stripped d p) f sets.
Proof.
  intros Hp HP. pose proof (stripped_valid d p Hp) as Hv. pose proof (stripped_poses d p g f HP) as HP'. split; [exact Hv|]. split; [exact HP'|].
  apply C93_same_side; [done..|]. by apply stripped_side.
Qed.
(** Nothing is left for the other direction then. *)
Theorem C93_no_other {N : Num} p d d' id : valid p → d ≠ d' → ¬ is_well d' (pb_rates (stripped d p)) id.
Proof. exact (stripped_none d d' p id). Qed.

(** ** Example *)
(** The cyclic problem with another producer rate, a second producer on the cycle,
    an injector that also produces, and a well without a rate. *)
Definition os_p {N : Num} : problem := mkProblem 4 cy_conns (map nofZ [1; 2; 3; 4])
  [("I"%string, [(0, nofZ 2); (2, nofZ (-5))]); ("P"%string, [(3, nofZ (-7))]); ("Q"%string, [(1, nofZ (-1))]); ("Z"%string, [(0, nofZ 0)])].
Lemma os_valid {N : Num} : valid os_p. Proof. valid_tac. Qed.
Lemma os_poses {N : Num} : poses os_p (graph_for os_p) (values_for os_p 1).
Proof. apply posed; [apply os_valid|forall_tac|reflexivity]. Qed.
Lemma os_side : same_side Injection (@cy_p b64) os_p.
Proof.
  split; [reflexivity|reflexivity|by apply same_arcs|]. intros id c. unfold well_rate. cbn [os_p cy_p pb_rates om_find].
  destruct (kcmp id "I"%string); [|reflexivity|].
  - cbn [om_find]. destruct (kcmp c 0); [reflexivity|reflexivity|]. destruct (kcmp c 2); reflexivity.
  - destruct (kcmp id "P"%string).
    + cbn [om_find]. destruct (kcmp c 3); reflexivity.
    + reflexivity.
    + destruct (kcmp id "Q"%string); [|reflexivity|].
      * cbn [om_find]. destruct (kcmp c 1); reflexivity.
      * destruct (kcmp id "Z"%string); [|reflexivity|reflexivity]. cbn [om_find]. destruct (kcmp c 0); reflexivity.
Qed.
Definition os_run {N : Num} (p : problem) d id := diagnose d ex_ev (graph_for p) p (values_for p 1) [cs_new id].
Example C93_ex id : os_run (@cy_p b64) Injection id = os_run os_p Injection id.
Proof. apply C93_same_side; [apply cy_valid|apply posed; [apply cy_valid|forall_tac|reflexivity]|apply os_valid|apply os_poses|exact os_side]. Qed.
(** Both are results, and the production diagnostics differ. *)
Example C93_runs : solves (os_run (@cy_p b64) Injection "I"%string) (λ sol, solves (os_run (@cy_p b64) Production "P"%string) (λ sol', solves (os_run (@os_p b64) Production "P"%string) (λ sol'',
  negb (holds (sol_concentration sol "I"%string) []) &&
  match sol_global_tof sol' !! 3%nat, sol_global_tof sol'' !! 3%nat with Some t, Some t' => nltb t' t | _, _ => false end))) = true.
Proof. vm_compute. reflexivity. Qed.
Example C93_ex_left_out : pb_rates (stripped Injection (@os_p exact)) = [("I"%string, [(0, nofZ 2)]); ("P"%string, []); ("Q"%string, []); ("Z"%string, [])].
Proof. vm_compute. reflexivity. Qed.

Print Assumptions C93_same_side.
Print Assumptions C93_left_out.
Print Assumptions C93_no_other.
