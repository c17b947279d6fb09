(** Property C64: opm/flowdiagnostics/TracerTofSolver.cpp,
    the number of sweeps of solveMultiCell. *)
From Coq Require Import QArith Qcanon String.
From Verif.Model Require Import Base Num OMap Containers Solution AssembledConnections Tarjan TracerTofSolver Toolbox.
From Verif.Spec Require Import ContainerSpec ToolboxSpec MirrorSpec.
From Verif.Proofs Require Import Util ContainerProps ExactNum QcLra OrdLaws SolverBase SolverRun SolverTop GaussSeidel ExactRun ToolboxRates ToolboxFlow ToolboxVal ToolboxExact ToolboxPose ToolboxState Slow.
From Verif.Props Require Import Toolbox SameFlow.
Open Scope Z_scope.

(** Two cells.  Of the flux [k + 1] that leaves cell 0 all but one comes back from cell
    1, where the producer is; the injector is in cell 0. *)
Definition slow_p {N : Num} (k : Z) : problem :=
  mkProblem 2 [(0, 1, [nofZ (k + 1)]); (1, 0, [nofZ k])] [nofZ (k + 1); nofZ (k + 1)]
    [("I"%string, [(0, nofZ 1)]); ("P"%string, [(1, nofZ (-1))])].
Lemma slow_valid {N : Num} k : valid (slow_p k). Proof. valid_tac. Qed.
Lemma slow_poses {N : Num} k : poses (slow_p k) (graph_for (slow_p k)) (values_for (slow_p k) 1).
Proof. apply posed; [apply slow_valid|forall_tac|reflexivity]. Qed.
Lemma slow_int {N : Num} k : data is_int (slow_p k).
Proof.
  split; cbv [slow_p pb_conns pb_rates pb_pv]; intros; repeat match goal with
  | H : _ ∈ [] |- _ => by apply elem_of_nil in H
  | H : _ ∈ _ :: _ |- _ => apply elem_of_cons in H as [->|H]
  | H : _ ∈ _ |- _ => progress cbv [snd] in H
  end; by eexists.
Qed.

Definition zq (z : Z) : Qc := Q2Qc (inject_Z z).
Lemma zq_add a b : zq (a + b) = (zq a + zq b)%Qc.
Proof. unfold zq. apply Qc_is_canon. rewrite qc_this_add, !qc_this_Q2Qc. by rewrite inject_Z_plus. Qed.
Lemma zq_lt a b : a < b → (zq a < zq b)%Qc.
Proof. intros H. unfold zq, Qclt. rewrite !qc_this_Q2Qc. unfold Qlt. cbn. lia. Qed.
Lemma zq_1 : zq 1 = 1%Qc. Proof. by apply Qc_is_canon. Qed.
Lemma zq_0 : zq 0 = 0%Qc. Proof. by apply Qc_is_canon. Qed.
Lemma ofZ_zq z : @nofZ exact z = Fin (zq z). Proof. done. Qed.

Lemma one_left (x : Qc) : @sum_left exact [Fin x] = Fin x.
Proof. unfold sum_left. cbn [foldl]. rewrite exact_n0. cbn [nadd exact xadd]. by rewrite Qcplus_0_l. Qed.
Lemma net_pos u v (x : Qc) : (0 < x)%Qc → @net_arc exact (u, v, [Fin x]) = Some (u, v, Fin x).
Proof. intros H. unfold net_arc. cbn [fst snd]. rewrite one_left, exact_n0. cbn [nltb exact xltb]. by rewrite (proj2 (Qc_ltb_true _ _) H). Qed.
Lemma slow_flow k : 0 < k → flow Injection (@slow_p exact k) = [(0, 1, Fin (zq (k + 1))); (1, 0, Fin (zq k))].
Proof.
  intros Hk. cbn [flow]. unfold net_arcs, slow_p, pb_conns. cbn [omap list_omap]. rewrite !ofZ_zq, !net_pos; [done|..].
  all: rewrite <-zq_0; apply zq_lt; lia.
Qed.

Section slow.
Context (k : Z) (Hk : 1 < k).
Notation p := (@slow_p exact k).
Notation A := (flow Injection p).
Notation src := (only Injection (split_rates (pb_rates p))).
Lemma slow_src v : value_at src v = cell_total Injection (pb_rates p) v.
Proof. apply only_value, (va_rates _ (slow_valid k)). Qed.
Lemma slow_src_0 : value_at src 0 = Fin 1%Qc. Proof. vm_compute. by f_equal; apply Qc_is_canon. Qed.
Lemma slow_src_1 : value_at src 1 = Fin 0%Qc. Proof. vm_compute. by f_equal; apply Qc_is_canon. Qed.
Lemma slow_up : up 2 A 0 = [1] ∧ up 2 A 1 = [0].
Proof. rewrite slow_flow by lia. split; reflexivity. Qed.
Lemma slow_w : wq A 1 0 = (zq (k + 1) - 1)%Qc ∧ wq A 0 1 = zq (k + 1).
Proof.
  rewrite slow_flow by lia. unfold wq, arc_flux. split.
  - change (omap _ _) with [Fin (zq k)]. rewrite one_left. cbn [qv]. rewrite zq_add, zq_1. ring.
  - change (omap _ _) with [Fin (zq (k + 1))]. by rewrite one_left.
Qed.
Lemma slow_pores : pores_ok p.
Proof.
  intros x Hx. assert (x = Fin (zq (k + 1))) as ->.
  { cbv [pb_pv slow_p] in Hx. repeat (apply elem_of_cons in Hx as [->|Hx]; [done|]). by apply elem_of_nil in Hx. }
  rewrite exact_n0. apply xleb_Fin, Qclt_le_weak. rewrite <-zq_0. apply zq_lt. lia.
Qed.
Lemma slow_fd : finite_data 2 A (pb_pv p) src (ginj src).
Proof. apply (finite_global p (slow_valid k) (data_impl _ _ _ int_finite (slow_int k)) slow_pores Injection). Qed.
Lemma slow_T : Tq 2 A src (ginj src) 0 = zq (k + 1) ∧ Tq 2 A src (ginj src) 1 = zq (k + 1).
Proof.
  destruct slow_up as [U0 U1], slow_w as [W0 W1]. rewrite !(Tq_eq _ _ _ _ _ slow_fd), slow_src_0, slow_src_1. unfold qmix.
  rewrite U0, U1. qsum_simpl. change (DerivedSpec.qsum []) with 0%Qc. rewrite W0, W1. cbn [qv]. split; ring.
Qed.
Lemma slow_pq : pq (pb_pv p) 0 = zq (k + 1) ∧ pq (pb_pv p) 1 = zq (k + 1).
Proof. done. Qed.
Lemma slow_b : bq (ginj src) 0 = 1%Qc ∧ bq (ginj src) 1 = 0%Qc.
Proof. unfold bq, ginj. rewrite slow_src_0, slow_src_1. done. Qed.
Lemma slow_comps comps : ordered A (λ v, 0 ≤ v < 2) comps → comps = [[0; 1]] ∨ comps = [[1; 0]].
Proof.
  intros Ho. pose proof (oc_nodup _ _ _ Ho) as Hnd. pose proof (oc_cover _ _ _ Ho) as Hc. pose proof (oc_ne _ _ _ Ho) as Hne. pose proof (oc_strong _ _ _ Ho) as Hs.
  assert (leads A 0 1 ∧ leads A 1 0) as [L1 L2] by (split; apply rtc_once; unfold flows; rewrite slow_flow by lia; cbn; set_solver).
  destruct comps as [|C comps]; [exfalso; by apply (elem_of_nil 0), Hc|].
  apply Forall_cons in Hne as [HC Hne].
  assert (0 ∈ C ∧ 1 ∈ C) as [C0 C1].
  { destruct C as [|v C]; [done|]. assert (v ∈ concat ((v :: C) :: comps)) as Hv by left. apply Hc in Hv.
    assert (v = 0 ∨ v = 1) as [-> | ->] by lia.
    - split; [left|]. apply (Hs (0 :: C) 0 1); [left|left|done].
    - split; [|left]. apply (Hs (1 :: C) 1 0); [left|left|done]. }
  cbn [concat] in Hnd, Hc. apply NoDup_app in Hnd as (HndC & Hdis & _).
  destruct comps as [|D comps].
  2:{ exfalso. apply Forall_cons in Hne as [HD _]. destruct D as [|v D]; [done|].
      assert (v ∈ C ++ concat ((v :: D) :: comps)) as Hv by (apply elem_of_app; right; left). apply Hc in Hv.
      apply (Hdis v); [|left]. by assert (v = 0 ∨ v = 1) as [-> | ->] by lia. }
  assert (∀ v, v ∈ C → v = 0 ∨ v = 1) as Hin. { intros v Hv. assert (v ∈ C ++ concat []) as H by (by apply elem_of_app; left). apply Hc in H. lia. }
  clear Hc Hs Ho Hne Hdis.
  destruct C as [|a [|b C]]; [done| |].
  { apply elem_of_list_singleton in C0, C1. by subst. }
  assert (C = []) as ->.
  { destruct C as [|c C]; [done|]. exfalso. rewrite !NoDup_cons in HndC. rewrite !elem_of_cons in HndC.
    destruct (Hin a ltac:(left)), (Hin b ltac:(right; left)), (Hin c ltac:(right; right; left)); subst; tauto. }
  rewrite !NoDup_cons in HndC. rewrite !elem_of_cons in HndC.
  destruct (Hin a ltac:(left)), (Hin b ltac:(right; left)); subst; tauto.
Qed.

Lemma slow_run n fuel comps : (fuel ≤ n)%nat → 2 * Z.of_nat n ≤ k + 1 → ordered A (λ v, 0 ≤ v < 2) comps →
  run 2 A (pb_pv p) src (ginj src) fuel comps = NoFuel.
Proof.
  intros Hf Hn Ho. destruct slow_up as [U0 U1], slow_w as [W0 W1], slow_T as [T0 T1], slow_pq as [P0 P1], slow_b as [B0 B1].
  assert (∃ C, comps = [C] ∧ (C = [0; 1] ∨ C = [1; 0])) as (C & -> & HC) by (destruct (slow_comps comps Ho) as [-> | ->]; eauto).
  unfold run. cbn [foldM]. assert (∀ st, run_comp 2 A (pb_pv p) src (ginj src) fuel st C = run_loop 2 A (pb_pv p) src (ginj src) fuel C st big_delta big_delta) as E
    by (by destruct HC as [-> | ->]).
  rewrite E. clear E. rewrite (loop_long 2 A (pb_pv p) src (ginj src) slow_fd C n fuel zero_state (λ _, 0%Qc, λ _, 0%Qc) big_delta big_delta); [done|..].
  - destruct HC as [-> | ->]; repeat constructor; set_solver.
  - intros u. split; apply exact_n0.
  - split; [split|]; done.
  - intros i Hi. apply (not_quiet _ _ _ _ _ gs_M (zq (k + 1))) with (n := n); try done.
    + rewrite <-zq_1. apply zq_lt. lia.
    + assert (zq 2 = 1 + 1)%Qc as <- by (by apply Qc_is_canon). unfold qn. fold (zq (Z.of_nat n)). 
      unfold Qcle, zq. rewrite qc_this_mul, !qc_this_Q2Qc. unfold Qle. cbn. lia.
  - done.
  - vm_compute. done.
Qed.

Lemma slow_turned : flow Production p = [(1, 0, Fin (zq (k + 1))); (0, 1, Fin (zq k))].
Proof. cbn [flow]. change (net_arcs p) with A. rewrite slow_flow by lia. done. Qed.
Lemma cell_totals : cell_total Injection (pb_rates p) 0 = Fin 1%Qc ∧ cell_total Injection (pb_rates p) 1 = Fin 0%Qc ∧
  cell_total Production (pb_rates p) 0 = Fin 0%Qc ∧ cell_total Production (pb_rates p) 1 = Fin 1%Qc.
Proof. split_and!; vm_compute; by f_equal; apply Qc_is_canon. Qed.
Lemma one_influx (A' : list (@arc exact)) u v x : upstream 2 A' v = [u] → @arc_flux exact A' u v = @sum_left exact [Fin x] →
  @influx exact 2 A' v = Fin x.
Proof. intros E1 E2. unfold influx. rewrite E1. cbn [map]. by rewrite E2, !one_left. Qed.
Lemma slow_conserves : conserves p.
Proof.
  intros v Hv. cbn in Hv. destruct cell_totals as (C1 & C2 & C3 & C4). unfold total_in. change (pb_cells p) with 2. rewrite slow_turned, slow_flow by lia.
  assert (v = 0 ∨ v = 1) as [-> | ->] by lia.
  - rewrite C1, C3, (one_influx _ 1 0 (zq k)), (one_influx _ 1 0 (zq (k + 1))) by reflexivity. cbn [nadd exact xadd]. f_equal. rewrite zq_add, zq_1. ring.
  - rewrite C2, C4, (one_influx _ 0 1 (zq (k + 1))), (one_influx _ 0 1 (zq k)) by reflexivity. cbn [nadd exact xadd]. f_equal. rewrite zq_add, zq_1. ring.
Qed.
End slow.

(** The number of sweeps is not bounded by the size of the network: however large [n],
    there is a network of two cells with whole-numbered data and fluxes in balance for which
    [n] sweeps are not enough, whatever the start sets. *)
Theorem C64_sweeps_unbounded (n : nat) : ∃ (p : @problem exact) g f, valid p ∧ poses p g f ∧ data is_int p ∧ pores_ok p ∧
  conserves p ∧ pb_cells p = 2 ∧ zlen (pb_conns p) = 2 ∧
  (∀ ev sets, alloc_ok ev → sets_ok Injection p sets → (e_fuel ev ≤ n)%nat → diagnose Injection ev g p f sets = NoFuel) ∧
  (∃ sweeps, ∀ ev sets, alloc_ok ev → sets_ok Injection p sets → (sweeps ≤ e_fuel ev)%nat → ∃ sol, diagnose Injection ev g p f sets = Ok (OSol sol)).
Proof.
  set (k := 2 * Z.of_nat n + 2).
  exists (@slow_p exact k), (graph_for (@slow_p exact k)), (values_for (@slow_p exact k) 1).
  split; [apply slow_valid|]. split; [apply slow_poses|]. split; [apply slow_int|]. split; [apply slow_pores; lia|].
  split; [apply slow_conserves; lia|]. split; [done|]. split; [done|]. split.
  - intros ev sets Ha Hs Hf. destruct (diagnose_eq _ _ _ (@slow_valid exact k) (slow_poses k) Injection) as (s & HS & E). rewrite E.
    rewrite (proj2 (start_sets_iff Injection (pb_rates (@slow_p exact k)) _ (va_rates _ (slow_valid k))) Hs).
    unfold val, global_val. unfold ws_ok, scc_ok. rewrite !Ha. cbn [andb negb].
    rewrite (slow_run k ltac:(lia) n) by (done || lia || eapply gcomps_ordered; exact HS). done.
  - destruct (C23_total (@slow_p exact k) _ _ Injection (slow_valid k) (slow_poses k) (data_impl _ _ _ int_finite (slow_int k))) as (sw & H); [apply slow_pores; lia|].
    exists sw. intros ev sets Ha Hs Hsw. by apply H.
Qed.
(** In particular the loop's counter [num_iter], an [int] the model leaves out, overflows (TracerTofSolver.cpp:407-411). *)
Corollary C64_counter_overflow : ∃ (p : @problem exact) g f, valid p ∧ poses p g f ∧ data is_int p ∧ pores_ok p ∧ conserves p ∧ pb_cells p = 2 ∧
  ∀ ev sets, alloc_ok ev → sets_ok Injection p sets → Z.of_nat (e_fuel ev) < 2 ^ 31 → diagnose Injection ev g p f sets = NoFuel.
Proof.
  destruct (C64_sweeps_unbounded (Z.to_nat (2 ^ 31))) as (p & g & f & H1 & H2 & H3 & H4 & H5 & H6 & _ & H & _).
  exists p, g, f. split_and!; try done. intros ev sets Ha Hs Hf. apply H; [done|done|]. lia.
Qed.
(** The start sets of the theorem exist, and four sweeps are not enough for a flux of 8 of which 7 come back. *)
Example C64_ex : sets_ok Injection (@slow_p exact 7) [cs_make "I"%string [0]] ∧
  diagnose Injection (mkEnv (e_heap ex_ev) 4) (graph_for (@slow_p exact 7)) (@slow_p exact 7) (values_for (@slow_p exact 7) 1) [cs_make "I"%string [0]] = NoFuel ∧
  (∀ n, sets_ok Injection (@slow_p exact n) [cs_make "I"%string [0]]).
Proof.
  assert (∀ n, sets_ok Injection (@slow_p exact n) [cs_make "I"%string [0]]) as H.
  { intros n st Hst. apply elem_of_list_singleton in Hst as ->. split.
    - exists 0, (nofZ 1). vm_compute. reflexivity.
    - intros c Hc. cbn in Hc. apply elem_of_list_singleton in Hc as ->. exists "I"%string, (nofZ 1). vm_compute. reflexivity. }
  split_and!; [done| |done]. vm_compute. reflexivity.
Qed.

Print Assumptions C64_sweeps_unbounded.
Print Assumptions C64_counter_overflow.
