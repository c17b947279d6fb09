(** The graphs built by the toolbox, and the solutions computed on them. *)
From Verif.Model Require Import Base Num OMap Containers Solution AssembledConnections Tarjan TracerTofSolver Toolbox.
From Verif.Spec Require Import ToolboxSpec.
From Verif.Proofs Require Import Util OMapFacts AConn ToolboxState ToolboxRates SolverBase SolverRun SolverTop SolverGen.
Open Scope Z_scope.

Section flow.
Context {N : Num} (p : problem) (g : cgraph) (f : cvalues) (Hp : valid p) (HP : poses p g f).
Notation n := (pb_cells p).

Lemma conn_flux_ok k x : pb_conns p !! k = Some x → conn_flux f (Z.of_nat k) = Ok (sum_left x.2).
Proof.
  intros Hk. unfold conn_flux. rewrite (po_phases _ _ _ HP k x Hk).
  match goal with |- forZ 0 ?m ?F ?s0 = _ =>
    destruct (forZ_ind_Z m F (λ i a, a = sum_left (take (Z.to_nat i) x.2)) s0) as (a & E & Ha) end.
  - unfold zlen. lia.
  - done.
  - intros i a Hi ->. destruct (lookup_lt_is_Some_2 x.2 (Z.to_nat i)) as [w Hw]; [unfold zlen in Hi; lia|].
    pose proof (po_flux _ _ _ HP k x (Z.to_nat i) w Hk Hw) as Hget. rewrite Z2Nat.id in Hget by lia.
    rewrite Hget. cbn [mbind res_bind]. eexists. split; [done|].
    replace (Z.to_nat (i + 1)) with (S (Z.to_nat i)) by lia. rewrite (take_S_r _ _ w) by done. by rewrite sum_left_snoc.
  - rewrite E, Ha, zlen_nat. by rewrite firstn_all.
Qed.

Lemma net_arcs_ok : arcs_ok n (net_arcs p).
Proof.
  apply Forall_forall. intros a (x & Hx & Ea)%elem_of_list_omap.
  pose proof (proj1 (Forall_forall _ _) (va_ends _ Hp) x Hx) as [H1 H2].
  unfold net_arc in Ea. destruct (nltb n0 (sum_left x.2)); [by injection Ea as <-|].
  destruct (nltb (sum_left x.2) n0); [by injection Ea as <-|done].
Qed.

Lemma build_ok : forZ 0 (cg_num_connections g) (build_step g f) (ac_new, ac_new) =
  Ok (add_all ac_new (down_conns (net_arcs p)), add_all ac_new (up_conns (net_arcs p))).
Proof.
  rewrite (po_conns _ _ _ HP).
  match goal with |- forZ 0 ?m ?F ?s0 = _ =>
    destruct (forZ_ind_Z m F (λ i a, a = (add_all ac_new (down_conns (omap net_arc (take (Z.to_nat i) (pb_conns p)))),
      add_all ac_new (up_conns (omap net_arc (take (Z.to_nat i) (pb_conns p)))))) s0) as (a & E & Ha) end.
  - unfold zlen. lia.
  - done.
  - intros i a Hi ->. destruct (lookup_lt_is_Some_2 (pb_conns p) (Z.to_nat i)) as [x Hx]; [unfold zlen in Hi; lia|].
    pose proof (po_ends _ _ _ HP _ _ Hx) as He. pose proof (conn_flux_ok _ _ Hx) as Hf. rewrite Z2Nat.id in He, Hf by lia.
    unfold build_step. rewrite He. cbn [mbind res_bind]. rewrite Hf. cbn [mbind res_bind].
    replace (Z.to_nat (i + 1)) with (S (Z.to_nat i)) by lia. rewrite (take_S_r _ _ x) by done. rewrite omap_app.
    assert (omap net_arc [x] = match net_arc x with Some a => [a] | None => [] end) as -> by (cbn; by destruct (net_arc x)).
    unfold down_conns, up_conns. rewrite !map_app. unfold add_all. rewrite !foldl_app.
    assert (net_arc x = if nltb n0 (sum_left x.2) then Some (x.1.1, x.1.2, sum_left x.2)
      else if nltb (sum_left x.2) n0 then Some (x.1.2, x.1.1, nopp (sum_left x.2)) else None) as -> by done.
    destruct (nltb n0 (sum_left x.2)); [eexists; done|]. destruct (nltb (sum_left x.2) n0); [eexists; done|].
    eexists; done.
  - rewrite E, Ha, zlen_nat, firstn_all. done.
Qed.

Lemma built_ok : ∃ dn up, built_of g f = Ok (inl (dn, up)) ∧ graph_of n (net_arcs p) dn ∧ graph_of n (turn (net_arcs p)) up.
Proof.
  pose proof (va_cells _ Hp) as Hn. pose proof net_arcs_ok as HA.
  unfold built_of. rewrite build_ok. cbn [mbind res_bind fst snd]. rewrite (po_cells _ _ _ HP), to_int_small, to_size_small by lia.
  destruct (compress_graph n (net_arcs p)) as (dn & -> & Hdn); [lia|done|].
  destruct (compress_graph_up n (net_arcs p)) as (up & Eu & Hup); [lia|done|].
  cbn [mbind res_bind]. rewrite Eu. cbn [mbind res_bind]. eauto.
Qed.

(** ** The computation *)
Notation m := (pb_rates p).
Notation src d := (only d (split_rates m)).
Notation starts d id := (default [] (om_find id (by_id d (split_rates m)))).

Lemma src_range d c : c ∈ map fst (src d) → 0 ≤ c < n.
Proof. apply only_range; [apply (va_rates _ Hp)|]. intros id c' x. by apply (va_cellrates _ Hp d id c' x). Qed.

Lemma starts_ok d id : om_wf (starts d id) ∧ (∀ c, om_find c (starts d id) = well_rate d m id c) ∧
  (∀ c, c ∈ map fst (starts d id) ↔ is_Some (well_rate d m id c)) ∧
  (∀ c, c ∈ map fst (starts d id) → 0 ≤ c < n).
Proof.
  pose proof (by_id_find d m id (va_rates _ Hp)) as H.
  assert (om_wf (starts d id) ∧ ∀ c, om_find c (starts d id) = well_rate d m id c) as [Hw Hf].
  { destruct (om_find id (by_id d (split_rates m))) as [vals|]; cbn.
    - by destruct H as (? & _ & ?).
    - split; [apply om_nil_wf|]. intros c. destruct (well_rate d m id c) as [x|] eqn:E; [|done]. exfalso. apply H. by exists c, x. }
  assert (∀ c, c ∈ map fst (starts d id) ↔ is_Some (well_rate d m id c)) as Hk.
  { intros c. rewrite <-Hf. destruct (om_find c (starts d id)) as [y|] eqn:E.
    - split; [done|]. intros _. apply om_find_elem in E; [|done]. apply elem_of_list_fmap. by exists (c, y).
    - apply om_find_none in E; [|done]. split; [done|by intros []]. }
  split_and!; try done. intros c Hc. apply Hk in Hc as [x Hx]. by eapply (va_cellrates _ Hp d id c x).
Qed.

(** The solver the toolbox sets up. *)
Lemma solver_exists d : ∃ gr s d0, built_of g f = Ok (inl gr) ∧
  tts_make (along d gr) (against d gr) (pb_pv p) (src d) = Ok (s, d0) ∧
  solver_of n (flow d p) (pb_pv p) (src d) s ∧ zlen (td_local d0) = n.
Proof.
  destruct built_ok as (dn & up & Eb & Hdn & Hup). exists (dn, up).
  pose proof (va_cells _ Hp) as Hn. pose proof net_arcs_ok as HA.
  destruct (tts_make_ok n (flow d p) (pb_pv p) (src d) (along d (dn, up)) (against d (dn, up))) as (s & d0 & Hs & Hso & Hl).
  - lia.
  - destruct d; [done|by apply turn_ok].
  - by destruct d.
  - destruct d; [done|]. cbn [flow along against fst snd]. by rewrite turn_turn.
  - apply (va_pv _ Hp).
  - by apply only_find, (va_rates _ Hp).
  - apply src_range.
  - exists s, d0. split_and!; try done. rewrite Hl. apply tab_zlen. lia.
Qed.

Section value.
Context (d : direction) (s : tts) (HS : solver_of n (flow d p) (pb_pv p) (src d) s).
Notation lval h fuel id := (local_val n (flow d p) (pb_pv p) (src d) s h fuel (starts d id)).
Notation gval h fuel := (global_val n (flow d p) (pb_pv p) (src d) s h fuel).

Fixpoint val_loop (ev : env) (k : nat) (sol : solution) (sets : list cellset) : res (solution + exn) :=
  match sets with
  | [] => Ok (inl sol)
  | st :: rest =>
      r ← lval (e_heap ev k) (e_fuel ev) (cs_id st);
      match r with
      | inr e => Ok (inr e)
      | inl tc => val_loop ev (S k) (sol_assign_conc (sol_assign_tof sol (cs_id st) tc.1) (cs_id st) tc.2) rest
      end
  end.
Definition val (ev : env) (sets : list cellset) : res tb_obs :=
  r ← gval (e_heap ev 0) (e_fuel ev);
  match r with
  | inr e => Ok (OExn e)
  | inl tof => x ← val_loop ev 1 (sol_assign_global sol_new tof) sets; Ok (obs_of_sum x)
  end.

Lemma diag_loop_eq ev k d0 sol sets : zlen (td_local d0) = n →
  (∀ st, st ∈ sets → is_Some (om_find (cs_id st) (by_id d (split_rates m)))) →
  (x ← diag_loop ev k s d0 (by_id d (split_rates m)) sol sets; Ok (obs_of_sum x.2)) =
  (x ← val_loop ev k sol sets; Ok (obs_of_sum x)).
Proof.
  revert k d0 sol. induction sets as [|st sets IH]; intros k d0 sol Hd Hs; [done|].
  cbn [diag_loop val_loop]. destruct (Hs st) as [x Hx]; [left|].
  rewrite (insert_found _ [] x) by done.
  match goal with |- context [solve_local _ _ _ _ ?t] => assert (t = x) as -> by (transitivity (default [] (Some x)); [rewrite <-Hx|]; done) end.
  rewrite Hx. cbn [default id].
  destruct (starts_ok d (cs_id st)) as (Hw & _ & _ & Hr). rewrite Hx in Hw, Hr. cbn in Hw, Hr.
  destruct (solve_local_eq n (flow d p) (pb_pv p) (src d) s HS (e_heap ev k) (e_fuel ev) d0 x Hd Hw Hr) as (d1 & Hd1 & ->).
  destruct (local_val n (flow d p) (pb_pv p) (src d) s (e_heap ev k) (e_fuel ev) x) as [[[tof conc]|e]| | | |]; try done.
  cbn [mbind res_bind fst snd]. apply IH; [done|]. intros; apply Hs; by right.
Qed.
End value.

Lemma diagnose_eq d : ∃ s, solver_of n (flow d p) (pb_pv p) (src d) s ∧ ∀ ev sets,
  diagnose d ev g p f sets =
  if start_sets_ok (by_id d (split_rates m)) (src d) sets then val d s ev sets else Ok (OExn RuntimeError).
Proof.
  destruct (solver_exists d) as (gr & s & d0 & Eb & Em & HS & Hd0). exists s. split; [done|]. intros ev sets.
  unfold diagnose.
  assert (∃ t os, tb_run (tb_new g) [CPoreVolume (pb_pv p); CFlux f; CInflow m] = Ok (t, os)) as (t & os & Et).
  { cbn. unfold tb_assign_pv, tb_assign_flux. cbn [tb_new tb_g].
    rewrite (proj2 (Z.eqb_eq _ _)) by (by rewrite (va_pv _ Hp), (po_cells _ _ _ HP)). cbn.
    rewrite (proj2 (Z.eqb_eq _ _)) by (by rewrite (po_fconns _ _ _ HP), (po_conns _ _ _ HP)). cbn. eauto. }
  rewrite (returns_eq g _ t os) by done.
  assert (last (omap (accepted_pv g) [CPoreVolume (pb_pv p); CFlux f; CInflow m]) = Some (pb_pv p)) as ->.
  { cbn. rewrite decide_True; [done|]. by rewrite (va_pv _ Hp), (po_cells _ _ _ HP). }
  assert (last (omap (accepted_flux g) [CPoreVolume (pb_pv p); CFlux f; CInflow m]) = Some f) as ->.
  { cbn. rewrite decide_True; [done|]. by rewrite (po_fconns _ _ _ HP), (po_conns _ _ _ HP). }
  change (last (omap accepted_rates [CPoreVolume (pb_pv p); CFlux f; CInflow m])) with (Some m).
  cbn [default id]. unfold diag_obs.
  assert (unset (pb_pv p) f = false) as ->.
  { unfold unset. apply orb_false_iff. split.
    - pose proof (va_cells _ Hp). pose proof (va_pv _ Hp) as E. destruct (pb_pv p); [|done]. unfold zlen in E. cbn in E. lia.
    - rewrite (po_fconns _ _ _ HP). apply Z.eqb_neq. pose proof (va_conns _ Hp). by destruct (pb_conns p). }
  destruct (start_sets_ok (by_id d (split_rates m)) (src d) sets) eqn:Hst; cbn [negb]; [|done].
  rewrite Eb. cbn [mbind res_bind]. unfold run_diag. rewrite Em. cbn [mbind res_bind].
  destruct (solve_global_eq n (flow d p) (pb_pv p) (src d) s HS (e_heap ev 0) (e_fuel ev) d0) as (d1 & Hd1 & ->).
  unfold val. destruct (global_val n (flow d p) (pb_pv p) (src d) s (e_heap ev 0) (e_fuel ev)) as [[tof|e]| | | |]; try done.
  cbn [mbind res_bind]. apply diag_loop_eq; [done|done|]. by eapply start_sets_found.
Qed.
End flow.
