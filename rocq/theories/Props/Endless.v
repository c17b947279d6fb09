(** Property C62: opm/flowdiagnostics/TracerTofSolver.cpp,
    the loop of solveMultiCell. *)
From Coq Require Import QArith Qcanon String.
From Coq.Floats Require Import SpecFloat.
From Verif.Model Require Import Base Num OMap Containers Solution AssembledConnections Tarjan TracerTofSolver Toolbox.
From Verif.Spec Require Import ContainerSpec ToolboxSpec MirrorSpec.
From Verif.Proofs Require Import Util ContainerProps OrdLaws B64Laws ToolboxPose Endless.
From Verif.Props Require Import Toolbox SameFlow.
Open Scope Z_scope.

(** Without cycles of two or more cells there is nothing to iterate, in any arithmetic. *)
Theorem C62_no_cycles {N : Num} p g f d ev sets : valid p → poses p g f →
  (∀ u v, leads (flow d p) u v → leads (flow d p) v u → u = v) → diagnose d ev g p f sets ≠ NoFuel.
Proof. apply apart_nofuel. Qed.
Example C62_ex ev sets : diagnose Injection ev (graph_for (@self_p b64)) (@self_p b64) (values_for (@self_p b64) 1) sets ≠ NoFuel.
Proof.
  apply C62_no_cycles; [apply self_valid|apply self_poses|]. intros u v Huv _. induction Huv as [|u v w H _ <-]; [done|].
  unfold flows in H. assert (map fst (flow Injection (@self_p b64)) = [(0, 0)]) as E by (vm_compute; reflexivity).
  rewrite E in H. by apply elem_of_list_singleton in H as [= -> ->].
Qed.

(** 29 cells.  The water of injector I1 in cell 0 is diluted on its way through
    the cells 1 to 23, into all of which I2 injects, until its concentration is 16
    times the smallest positive double.  It then enters a recirculating zone of the cells
    25, 26 and 27, at cell 26 directly and at cell 27 after some time in cell 24.
    The producer is in cell 28, and in every cell inflow equals outflow. *)
Definition faint_conns {N : Num} : list (Z * Z * list num) :=
  map (λ i, (i, i + 1, [nofZ 1])) (seqZ 0 24) ++ map (λ i, (i, 28, [nofZ (2 ^ 48 - 1)])) (seqZ 1 22) ++
  [(23, 26, [nofZ 1]); (23, 28, [nofZ (2 ^ 14 - 2)]); (24, 27, [nofZ 1]);
   (25, 26, [nofZ 3]); (26, 27, [nofZ 4]); (27, 25, [nofZ 3]); (27, 28, [nofZ 2])].
Definition faint_rates {N : Num} : flux_map :=
  [("I1"%string, [(0, nofZ 1)]);
   ("I2"%string, map (λ i, (i, nofZ (2 ^ 48 - 1))) (seqZ 1 22) ++ [(23, nofZ (2 ^ 14 - 1))]);
   ("P"%string, [(28, nofZ (- (22 * (2 ^ 48 - 1) + 2 ^ 14)))])].
Definition faint_p {N : Num} : problem :=
  mkProblem 29 faint_conns (map (λ i, if i =? 24 then frac 3 2 else frac 1 1024) (seqZ 0 29)) faint_rates.

Lemma faint_conns_ok {N : Num} : Forall (λ x : Z * Z * list num, (0 ≤ x.1.1 < 29 ∧ 0 ≤ x.1.2 < 29) ∧ zlen x.2 = 1) faint_conns.
Proof.
  apply Forall_app. split; [|apply Forall_app; split].
  - apply Forall_map, Forall_seqZ. intros k Hk. split; [cbn [fst snd]; lia|done].
  - apply Forall_map, Forall_seqZ. intros k Hk. split; [cbn [fst snd]; lia|done].
  - forall_tac.
Qed.
Lemma faint_rates_ok {N : Num} : rates_ok faint_rates.
Proof. split; [repeat constructor|forall_tac; vm_compute; repeat constructor]. Qed.
Lemma faint_valid {N : Num} : valid faint_p.
Proof.
  split; [cbn; lia|done|eapply Forall_impl; [apply faint_conns_ok|by intros ? []]|exists 1; eapply Forall_impl; [apply faint_conns_ok|by intros ? []]|apply faint_rates_ok|done|].
  apply cells_in; [apply faint_rates_ok|]. apply Forall_cons. split; [forall_tac|]. apply Forall_cons. split; [|forall_tac; forall_tac].
  cbn [snd]. rewrite map_app, map_map. apply Forall_app. split; [apply Forall_map, Forall_seqZ; intros k Hk; cbn [fst compose pb_cells faint_p]; lia|forall_tac].
Qed.
Lemma faint_poses {N : Num} : poses faint_p (graph_for faint_p) (values_for faint_p 1).
Proof. apply posed; [apply faint_valid|eapply Forall_impl; [apply faint_conns_ok|by intros ? []]|reflexivity]. Qed.
Lemma faint_data {N : Num} (W : num → Prop) : (∀ z, W (nofZ z)) → W (frac 3 2) → W (frac 1 1024) → data W faint_p.
Proof.
  intros W1 W2 W3. split.
  - intros x w Hx Hw. change (x ∈ faint_conns) in Hx. unfold faint_conns in Hx. rewrite !elem_of_app, !elem_of_list_fmap in Hx.
    destruct Hx as [(i & -> & _)|[(i & -> & _)|Hx]]; [by apply elem_of_list_singleton in Hw as ->..|].
    repeat (apply elem_of_cons in Hx as [->|Hx]; [by apply elem_of_list_singleton in Hw as ->|]). by apply elem_of_nil in Hx.
  - intros e k He Hk. change (e ∈ faint_rates) in He. unfold faint_rates in He. apply elem_of_cons in He as [->|He]; [apply elem_of_list_singleton in Hk as ->; apply W1|].
    apply elem_of_cons in He as [->|He].
    + unfold snd in Hk. rewrite elem_of_app, elem_of_list_fmap in Hk. destruct Hk as [(i & -> & _)|Hk]; [apply W1|apply elem_of_list_singleton in Hk as ->; apply W1].
    + apply elem_of_list_singleton in He as ->. apply elem_of_list_singleton in Hk as ->. apply W1.
  - intros x Hx. unfold faint_p, pb_pv in Hx. apply elem_of_list_fmap in Hx as (i & -> & _). by destruct (i =? 24).
Qed.
Lemma cells_check (P : Z → bool) n : forallb P (seqZ 0 n) = true → ∀ v, 0 ≤ v < n → P v = true.
Proof. intros H v Hv. rewrite forallb_forall in H. apply H, elem_of_list_In, elem_of_seqZ. lia. Qed.
Lemma faint_pores_b64 : pores_ok (@faint_p b64).
Proof. intros x Hx. apply elem_of_list_fmap in Hx as (i & -> & _). destruct (i =? 24); vm_compute; reflexivity. Qed.
Lemma faint_pores : pores_ok (@faint_p exact).
Proof. intros x Hx. apply elem_of_list_fmap in Hx as (i & -> & _). destruct (i =? 24); vm_compute; reflexivity. Qed.
Lemma faint_no_overflow : no_overflow Injection (@faint_p b64).
Proof. refine (cells_check (λ v, nltb (total_in (@faint_p b64) Injection v) ninf) 29 _). vm_compute. reflexivity. Qed.

Global Instance spec_float_eq_dec : EqDecision spec_float. Proof. solve_decision. Defined.
Global Instance b64_eq_dec : EqDecision (@num b64). Proof. exact spec_float_eq_dec. Defined.

Lemma faint_conserves : conserves (@faint_p b64).
Proof.
  intros v Hv. apply (proj1 (bool_decide_eq_true (total_in (@faint_p b64) Injection v = total_in (@faint_p b64) Production v))). revert v Hv.
  refine (cells_check (λ v, bool_decide (total_in (@faint_p b64) Injection v = total_in (@faint_p b64) Production v)) 29 _). vm_compute. reflexivity.
Qed.

(** The global solve ends within 100 sweeps.  When I1 is solved for, the zone is the
    component number 25; after ten sweeps its state is the same every second sweep. *)
Lemma faint_trapped : @trapped b64 _ 1 25 10 1
  (prepared (e_heap ex_ev 0) 100 (graph_for (@faint_p b64)) (@faint_p b64) (values_for (@faint_p b64) 1) (cs_make "I1"%string [0])) = true.
Proof. vm_compute. reflexivity. Qed.

(** In double precision computeInjectionDiagnostics need not return, although all data are dyadic fractions,
    nothing overflows, and the fluxes are in balance: no number of sweeps is enough. *)
Theorem C62_endless_b64 : ∃ (p : @problem b64) g f id, valid p ∧ poses p g f ∧ @data b64 b64_ok p ∧ pores_ok p ∧
  no_overflow Injection p ∧ conserves p ∧ sets_ok Injection p [cs_make id [0]] ∧
  ∀ ev st sets, alloc_ok ev → cs_id st = id → sets_ok Injection p (st :: sets) → diagnose Injection ev g p f (st :: sets) = NoFuel.
Proof.
  exists (@faint_p b64), (graph_for (@faint_p b64)), (values_for (@faint_p b64) 1), "I1"%string.
  split; [apply faint_valid|]. split; [apply faint_poses|].
  split; [exact (@faint_data b64 b64_ok (o_ok_ofZ _ b64_laws) ltac:(vm_compute; reflexivity) ltac:(vm_compute; reflexivity))|].
  split; [exact faint_pores_b64|]. split; [exact faint_no_overflow|]. split; [exact faint_conserves|]. split.
  - intros st Hst. apply elem_of_list_singleton in Hst as ->. split.
    + exists 0, (nofZ 1). vm_compute. reflexivity.
    + intros c Hc. cbn in Hc. apply elem_of_list_singleton in Hc as ->. exists "I1"%string, (nofZ 1). vm_compute. reflexivity.
  - apply (endless _ _ _ (e_heap ex_ev 0) 100 (cs_make "I1"%string [0]) 1 25 10 1 faint_valid faint_poses); [done|lia|exact faint_trapped].
Qed.
(** With exact numbers the same problem is solved. *)
Example C62_ex_exact : ∃ sweeps, ∀ ev sets, (sweeps ≤ e_fuel ev)%nat →
  diagnose Injection ev (graph_for (@faint_p exact)) (@faint_p exact) (values_for (@faint_p exact) 1) sets ≠ NoFuel.
Proof. 
  apply C30_terminates; [apply faint_valid|apply faint_poses| |exact faint_pores]. apply faint_data; [by eexists|exists (Q2Qc (3 # 2))|exists (Q2Qc (1 # 1024))]; apply xeqb_eq; vm_compute; reflexivity.
Qed.

Print Assumptions C62_no_cycles.
Print Assumptions C62_endless_b64.
